(** * C99: polynomial layers in floating point. *)
From Coq Require Import Reals ZArith List Lia Lra Permutation.
From Flocq Require Import Core Relative Plus_error.
From Verif Require Import Spec Tensor Utils LagrangePolynomial Basis PolynomialLayers FloatUtils FloatLayers SumFacts TensorFacts LagrangeFacts
  LayerProofs FloatFacts Prop_Float.
Import ListNotations.
Local Open Scope R_scope.

(** How far [k] roundings can move a number, relative to its size. *)
Definition growth (emin prec : Z) (k : nat) : R := (1 + (bpow radix2 (- prec) + bpow radix2 (emin - 1))) ^ k - 1.

(** The size of the factors of the [j]-th basis function at [x], each counted as at least one. *)
Definition amplification (n : nat) (X : tensor R) (x : R) (j : nat) : R :=
  rprod n (fun m => if Nat.eqb m j then 1 else Rmax 1 (Rabs ((x - at_ X [m]) / (at_ X [j] - at_ X [m])))).

Section Format.
Variables emin prec : Z.
Hypothesis Hprec : (0 < prec)%Z.
Hypothesis Hemin : (emin <= 0)%Z.
Local Instance prec_pos : Prec_gt_0 prec := Hprec.
Notation rnd := (nearest emin prec).
Notation fmt := (representable emin prec).
Notation u := (bpow radix2 (- prec)).
Notation eta := (bpow radix2 (emin - 1)).
Notation d := (u + eta).

Lemma u_eq : / 2 * bpow radix2 (- prec + 1) = u.
Proof. rewrite bpow_plus. change (bpow radix2 1) with 2. field. Qed.
Lemma eta_eq : / 2 * bpow radix2 emin = eta.
Proof. unfold Zminus. rewrite bpow_plus. change (bpow radix2 (Z.opp 1)) with (/ 2). ring. Qed.
Lemma u_pos : 0 <= u. Proof. apply bpow_ge_0. Qed.
Lemma eta_pos : 0 <= eta. Proof. apply bpow_ge_0. Qed.

Lemma any_err y : Rabs (rnd y - y) <= u * Rabs y + eta.
Proof.
  destruct (error_N_FLT radix2 emin prec Hprec (fun n => negb (Z.even n)) y) as (e & t & B & C & _ & R).
  unfold nearest. rewrite R, u_eq, eta_eq in *. replace (y * (1 + e) + t - y) with (y * e + t) by ring.
  eapply Rle_trans; [apply Rabs_triang|]. rewrite Rabs_mult. pose proof (Rabs_pos y).
  apply Rplus_le_compat; auto. rewrite Rmult_comm. now apply Rmult_le_compat_r.
Qed.

Lemma add_ex a b : fmt a -> fmt b -> exists e, Rabs e <= u / (1 + u) /\ rnd (a + b) = (a + b) * (1 + e).
Proof.
  intros A B. destruct (FLT_plus_error_N_ex radix2 emin prec (fun n => negb (Z.even n)) a b A B) as (e & C & R).
  exists e. split; [|exact R]. unfold u_ro in C. now rewrite u_eq in C.
Qed.
Lemma v_le_u : u / (1 + u) <= u.
Proof. pose proof u_pos. apply (Rmult_le_reg_r (1 + u)); [lra|]. unfold Rdiv. rewrite Rmult_assoc, Rinv_l by lra. nra. Qed.

Lemma add_err a b : fmt a -> fmt b -> Rabs (rnd (a + b) - (a + b)) <= u * Rabs (a + b).
Proof.
  intros A B. destruct (add_ex a b A B) as (e & C & ->). replace ((a + b) * (1 + e) - (a + b)) with (e * (a + b)) by ring.
  rewrite Rabs_mult. apply Rmult_le_compat_r; [apply Rabs_pos|]. pose proof v_le_u. lra.
Qed.

Lemma sub_ex a b : fmt a -> fmt b -> exists e, Rabs e <= u / (1 + u) /\ rnd (a - b) = (a - b) * (1 + e).
Proof. intros A B. apply (add_ex a (- b)); auto. now apply fmt_opp. Qed.

Lemma sub_nonzero a b : fmt a -> fmt b -> a <> b -> rnd (a - b) <> 0.
Proof. intros A B N. apply round_plus_neq_0; try apply _; auto; [now apply fmt_opp|lra]. Qed.

(** One factor. *)
Lemma quotient_bound a b e e' : b <> 0 -> Rabs e <= u / (1 + u) -> Rabs e' <= u / (1 + u) ->
  Rabs (a * (1 + e) / (b * (1 + e')) - a / b) <= Rabs (a / b) * (2 * u).
Proof.
  intros Hb He He'. pose proof u_pos as U. set (v := u / (1 + u)) in *.
  assert (V : v * (1 + u) = u) by (unfold v; field; lra).
  assert (V1 : v < 1) by (unfold v; apply (Rmult_lt_reg_r (1 + u)); [lra|]; unfold Rdiv; rewrite Rmult_assoc, Rinv_l by lra; lra). assert (V0 : 0 <= v) by (unfold v, Rdiv; apply Rmult_le_pos; [lra|apply Rlt_le, Rinv_0_lt_compat; lra]).
  apply Rabs_le_inv in He, He'.
  replace (a * (1 + e) / (b * (1 + e')) - a / b) with (a / b * ((e - e') / (1 + e'))) by (field; repeat split; auto; lra).
  rewrite Rabs_mult. apply Rmult_le_compat_l; [apply Rabs_pos|].
  unfold Rdiv. rewrite Rabs_mult, (Rabs_right (/ _)) by (apply Rle_ge, Rlt_le, Rinv_0_lt_compat; lra).
  apply (Rmult_le_reg_r (1 + e')); [lra|]. rewrite Rmult_assoc, Rinv_l by lra. rewrite Rmult_1_r.
  apply Rle_trans with (2 * v); [apply Rabs_le; lra|]. 
  assert (2 * v = 2 * u * (1 - v)) by lra. assert (2 * u * (1 - v) <= 2 * u * (1 + e')) by (apply Rmult_le_compat_l; lra). lra.
Qed.

Lemma factor_error X x j m A : fmt x -> fmt (at_ X [j]) -> fmt (at_ X [m]) -> (m <> j -> at_ X [j] <> at_ X [m]) ->
  A = (if Nat.eqb m j then 1 else Rmax 1 (Rabs ((x - at_ X [m]) / (at_ X [j] - at_ X [m])))) ->
  let f := if negb (Nat.eqb m j) then (x - at_ X [m]) / (at_ X [j] - at_ X [m]) else 1 in
  1 <= A /\ Rabs f <= A /\ Rabs (fl_factor rnd X x j m - f) <= A * ((1 + d) ^ 3 - 1).
Proof.
  intros Fx Fj Fm N -> f. subst f. unfold fl_factor. pose proof u_pos as U. pose proof eta_pos as T.
  destruct (Nat.eqb_spec m j) as [->|H]; cbn [negb].
  - unfold Rminus at 1; rewrite Rplus_opp_r, Rabs_R0, Rabs_R1. split; [lra|]. split; [lra|]. 
    assert (1 <= (1 + d) ^ 3) by (apply pow_R1_Rle; lra). lra.
  - set (f := (x - at_ X [m]) / (at_ X [j] - at_ X [m])). set (A := Rmax 1 (Rabs f)).
    assert (A1 : 1 <= A) by apply Rmax_l. assert (A2 : Rabs f <= A) by apply Rmax_r. do 2 (split; auto).
    destruct (sub_ex x (at_ X [m]) Fx Fm) as (e & E1 & ->). destruct (sub_ex (at_ X [j]) (at_ X [m]) Fj Fm) as (e' & E2 & ->).
    assert (D : at_ X [j] - at_ X [m] <> 0) by (specialize (N H); lra).
    pose proof (quotient_bound (x - at_ X [m]) _ e e' D E1 E2) as Q. fold f in Q.
    set (q := (x - at_ X [m]) * (1 + e) / ((at_ X [j] - at_ X [m]) * (1 + e'))) in *.
    assert (Q1 : Rabs (q - f) <= A * (2 * u)) by (eapply Rle_trans; [exact Q|]; apply Rmult_le_compat_r; lra).
    assert (Q2 : Rabs q <= A * (1 + 2 * u)).
    { replace q with (f + (q - f)) by ring. eapply Rle_trans; [apply Rabs_triang|]. lra. }
    assert (Q3 : 1 <= A * (1 + 2 * u)) by nra.
    pose proof (any_err' rnd u eta U T any_err q _ Q2 Q3) as Q4.
    replace (rnd q - f) with ((rnd q - q) + (q - f)) by ring. eapply Rle_trans; [apply Rabs_triang|].
    apply Rle_trans with (A * (d * (1 + 2 * u) + 2 * u)); [nra|]. apply Rmult_le_compat_l; [lra|].
    assert (d * (1 + 2 * u) <= d * (1 + 2 * d)) by (apply Rmult_le_compat_l; lra). cbn [pow]. nra.
Qed.

(** One basis function. *)
Lemma call_error n X x j r : (1 <= n)%nat -> (j < n)%nat -> fmt x -> (forall k, (k < n)%nat -> fmt (at_ X [k])) ->
  (forall k k', (k < n)%nat -> (k' < n)%nat -> k <> k' -> at_ X [k] <> at_ X [k']) ->
  fl_lagrange_call rnd n X x j r ->
  1 <= amplification n X x j /\ Rabs (lagrange_call n X x j) <= amplification n X x j /\
  Rabs (r - lagrange_call n X x j) <= amplification n X x j * ((1 + d) ^ (4 * n) - 1).
Proof.
  intros Hn Hj Fx FX D H. pose proof u_pos as U. pose proof eta_pos as T.
  assert (P1 : forall k, 1 <= (1 + d) ^ k) by (intros; apply pow_R1_Rle; lra).
  unfold fl_lagrange_call in H. destruct (Nat.eqb_spec n 1) as [->|N1].
  - destruct j as [|j]; [|lia]. subst r. unfold amplification, lagrange_call. cbn [rprod Nat.eqb negb]. rewrite !Rmult_1_l.
    rewrite Rabs_R1. split; [lra|]. split; [lra|]. unfold Rminus at 1. rewrite Rplus_opp_r, Rabs_R0. specialize (P1 (4 * 1)%nat). lra.
  - set (f := fun m => if negb (Nat.eqb m j) then (x - at_ X [m]) / (at_ X [j] - at_ X [m]) else 1).
    set (a := fun m => if Nat.eqb m j then 1 else Rmax 1 (Rabs ((x - at_ X [m]) / (at_ X [j] - at_ X [m])))).
    destruct (product_error rnd u eta U T any_err (fl_factor rnd X x j) f a _ r H (seq 0 n) eq_refl) as (A & B & C).
    { intros m Hm. apply in_seq in Hm. refine (factor_error X x j m (a m) Fx (FX j Hj) (FX m _) _ eq_refl); [lia|].
      intros Ne. apply D; lia. }
    rewrite !lprod_seq, seq_length in *. change (rprod n a) with (amplification n X x j) in *.
    replace (rprod n f) with (lagrange_call n X x j) in *.
    2:{ unfold lagrange_call, f. apply rprod_ext. intros m Hm. cbn. now destruct (Nat.eqb m j). }
    do 2 (split; auto). eapply Rle_trans; [exact C|]. apply Rmult_le_compat_l; [lra|].
    assert ((1 + d) ^ (4 * n - 1) <= (1 + d) ^ (4 * n)) by (apply Rle_pow; [lra|lia]). lra.
Qed.

Lemma pairs_length I n (g : nat -> nat -> R * R) : length (flat_map (fun i => map (g i) (seq 0 n)) (seq 0 I)) = (I * n)%nat.
Proof.
  induction I as [|I IH]; [reflexivity|]. rewrite seq_S, flat_map_app, app_length, IH. cbn [flat_map app length].
  rewrite app_nil_r, map_length, seq_length. cbn. lia.
Qed.

Lemma pairs_sum I n (g : nat -> nat -> R * R) h : lsum h (flat_map (fun i => map (g i) (seq 0 n)) (seq 0 I)) = rsum I (fun i => rsum n (fun j => h (g i j))).
Proof. rewrite lsum_flat_map, lsum_seq. apply rsum_ext. intros i _. now rewrite lsum_map, lsum_seq. Qed.

Lemma rsum2_le I n f g : (forall i j, (i < I)%nat -> (j < n)%nat -> f i j <= g i j) -> rsum I (fun i => rsum n (f i)) <= rsum I (fun i => rsum n (g i)).
Proof. intros H. apply rsum_le. intros i Hi. apply rsum_le. auto. Qed.

(** One entry of a layer. *)
Lemma interpolate_error n X I x w r : (1 <= n)%nat -> (forall i, (i < I)%nat -> fmt (x i)) -> (forall k, (k < n)%nat -> fmt (at_ X [k])) ->
  (forall k k', (k < n)%nat -> (k' < n)%nat -> k <> k' -> at_ X [k] <> at_ X [k']) ->
  fl_interpolate rnd n X I x w r ->
  Rabs (r - rsum I (fun i => rsum n (fun j => lagrange_call n X (x i) j * w i j)))
  <= rsum I (fun i => rsum n (fun j => amplification n X (x i) j * Rabs (w i j))) * growth emin prec (4 * n + I * n)
     + INR (I * n) * (eta * (1 + u) ^ (I * n)).
Proof.
  intros Hn Fx FX D (b & Hb & H). pose proof u_pos as U. pose proof eta_pos as T.
  pose proof (contraction_error rnd fmt u eta U T any_err add_err (rnd_fmt emin prec Hprec) _ _ H) as C.
  rewrite !pairs_sum, !pairs_length in C. cbn [fst snd] in C.
  set (N := (I * n)%nat) in *. set (S := rsum I (fun i => rsum n (fun j => amplification n X (x i) j * Rabs (w i j)))).
  assert (E : forall i j, (i < I)%nat -> (j < n)%nat -> 1 <= amplification n X (x i) j /\ Rabs (lagrange_call n X (x i) j) <= amplification n X (x i) j /\
    Rabs (b i j - lagrange_call n X (x i) j) <= amplification n X (x i) j * ((1 + d) ^ (4 * n) - 1)) by (intros; apply call_error; auto).
  assert (P1 : forall k, 1 <= (1 + d) ^ k) by (intros; apply pow_R1_Rle; lra).
  assert (P2 : 1 <= (1 + u) ^ N) by (apply pow_R1_Rle; lra).
  assert (P3 : (1 + u) ^ N <= (1 + d) ^ N) by (apply pow_incr; lra).
  set (G := (1 + d) ^ (4 * n)) in *. pose proof (P1 (4 * n)%nat : 1 <= G).
  assert (S0 : 0 <= S). { apply rsum_nonneg. intros i Hi. apply rsum_nonneg. intros j Hj. destruct (E i j Hi Hj) as (A & _). apply Rmult_le_pos; [lra|apply Rabs_pos]. }
  assert (B1 : rsum I (fun i => rsum n (fun j => Rabs (b i j * w i j))) <= S * G).
  { unfold S. rewrite <- rsum_scal_r. apply rsum_le. intros i Hi. rewrite <- rsum_scal_r. apply rsum_le. intros j Hj.
    destruct (E i j Hi Hj) as (A1 & A2 & A3). rewrite Rabs_mult. pose proof (Rabs_pos (w i j)).
    assert (Rabs (b i j) <= amplification n X (x i) j * G).
    { replace (b i j) with (lagrange_call n X (x i) j + (b i j - lagrange_call n X (x i) j)) by ring. eapply Rle_trans; [apply Rabs_triang|]. lra. }
    replace (amplification n X (x i) j * Rabs (w i j) * G) with (amplification n X (x i) j * G * Rabs (w i j)) by ring. now apply Rmult_le_compat_r. }
  assert (B2 : Rabs (rsum I (fun i => rsum n (fun j => b i j * w i j)) - rsum I (fun i => rsum n (fun j => lagrange_call n X (x i) j * w i j))) <= S * (G - 1)).
  { rewrite <- rsum_minus. eapply Rle_trans; [apply rsum_abs|]. unfold S. rewrite <- rsum_scal_r. apply rsum_le. intros i Hi.
    rewrite <- rsum_minus. eapply Rle_trans; [apply rsum_abs|]. rewrite <- rsum_scal_r. apply rsum_le. intros j Hj.
    destruct (E i j Hi Hj) as (A1 & A2 & A3). rewrite <- Rmult_minus_distr_r, Rabs_mult. pose proof (Rabs_pos (w i j)).
    replace (amplification n X (x i) j * Rabs (w i j) * (G - 1)) with (amplification n X (x i) j * (G - 1) * Rabs (w i j)) by ring. now apply Rmult_le_compat_r. }
  set (bw := rsum I (fun i => rsum n (fun j => b i j * w i j))) in *. set (cw := rsum I (fun i => rsum n (fun j => lagrange_call n X (x i) j * w i j))) in *.
  set (ab := rsum I (fun i => rsum n (fun j => Rabs (b i j * w i j)))) in *.
  replace (r - cw) with ((r - bw) + (bw - cw)) by ring. eapply Rle_trans; [apply Rabs_triang|].
  unfold growth. rewrite Nat.add_comm, pow_add. fold G. set (Q := (1 + d) ^ N) in *. set (V := (1 + u) ^ N) in *.
  assert (ab * (V - 1) <= S * G * (Q - 1)).
  { apply Rle_trans with (S * G * (V - 1)); [apply Rmult_le_compat_r; lra|]. apply Rmult_le_compat_l; [apply Rmult_le_pos; lra|lra]. }
  lra.
Qed.

(** At a node. *)
Lemma call_at_node n X j k r : (1 <= n)%nat -> (j < n)%nat -> (k < n)%nat -> (forall k, (k < n)%nat -> fmt (at_ X [k])) ->
  (forall k k', (k < n)%nat -> (k' < n)%nat -> k <> k' -> at_ X [k] <> at_ X [k']) ->
  fl_lagrange_call rnd n X (at_ X [k]) j r -> r = if Nat.eqb j k then 1 else 0.
Proof.
  intros Hn Hj Hk FX D H. unfold fl_lagrange_call in H. destruct (Nat.eqb_spec n 1) as [->|N1].
  - replace j with 0%nat by lia. replace k with 0%nat by lia. exact H.
  - destruct (Nat.eqb_spec j k) as [->|Ne].
    + apply (product_ones rnd fmt (rnd_id emin prec) _ _ H (fmt_1 emin prec Hprec Hemin)). intros a Ha. apply in_map_iff in Ha. destruct Ha as (m & <- & Hm).
      apply in_seq in Hm. unfold fl_factor. destruct (Nat.eqb_spec m k) as [|Nm]; cbn [negb]; auto.
      unfold Rdiv. rewrite Rinv_r; [apply rnd_id, fmt_1; auto|]. apply sub_nonzero; [apply FX|apply FX|apply D]; lia.
    + apply (product_has_zero rnd _ _ H (rnd_0 emin prec)). apply in_map_iff. exists k. split; [|apply in_seq; lia].
      unfold fl_factor. destruct (Nat.eqb_spec k j) as [|_]; [congruence|]. cbn [negb].
      unfold Rminus at 1. rewrite Rplus_opp_r, rnd_0. unfold Rdiv. now rewrite Rmult_0_l, rnd_0.
Qed.

Lemma interpolate_at_node n X x w r k : (1 <= n)%nat -> (k < n)%nat -> (forall k, (k < n)%nat -> fmt (at_ X [k])) ->
  (forall k k', (k < n)%nat -> (k' < n)%nat -> k <> k' -> at_ X [k] <> at_ X [k']) -> fmt (w 0%nat k) ->
  x 0%nat = at_ X [k] -> fl_interpolate rnd n X 1 x w r -> r = w 0%nat k.
Proof.
  intros Hn Hk FX D Fw Hx (b & Hb & H). cbn [seq flat_map] in H. rewrite app_nil_r in H.
  assert (B : forall j, (j < n)%nat -> b 0%nat j = if Nat.eqb j k then 1 else 0).
  { intros j Hj. apply (call_at_node n X j k); auto. rewrite <- Hx. apply Hb; lia. }
  assert (P : Permutation (seq 0 n) (k :: (seq 0 k ++ seq (S k) (n - S k)))).
  { replace (seq 0 n) with (seq 0 k ++ k :: seq (S k) (n - S k)); [symmetry; apply Permutation_middle|].
    change (k :: seq (S k) (n - S k)) with (seq k (S (n - S k))). change (seq k) with (seq (0 + k)). rewrite <- seq_app. f_equal. lia. }
  pose proof (B k Hk) as Bk. rewrite Nat.eqb_refl in Bk.
  rewrite (contraction_single rnd fmt (rnd_id emin prec) _ _ H (rnd_0 emin prec) (b 0%nat k, w 0%nat k) (map (fun j => (b 0%nat j, w 0%nat j)) (seq 0 k ++ seq (S k) (n - S k)))).
  - cbn [fst snd]. rewrite Bk. ring.
  - exact (Permutation_map _ P).
  - cbn [fst snd]. now rewrite Bk, Rmult_1_l.
  - intros q Hq. apply in_map_iff in Hq. destruct Hq as (j & <- & Hj). cbn [fst snd].
    assert (j < n /\ j <> k)%nat as [J1 J2]. { apply in_app_iff in Hj. rewrite !in_seq in Hj. lia. }
    rewrite B by auto. destruct (Nat.eqb_spec j k); [congruence|ring].
Qed.
End Format.

(** ** C99 *)

(** Nodes as they are stored: [n] different numbers of the format. *)
Definition stored_nodes (emin prec : Z) (n : nat) (X : tensor R) : Prop :=
  (forall k, (k < n)%nat -> representable emin prec (at_ X [k])) /\
  (forall k k', (k < n)%nat -> (k' < n)%nat -> k <> k' -> at_ X [k] <> at_ X [k']).

(** Whatever the order of the reductions, the result is within a multiple of the unit roundoff of what real arithmetic
    gives with the stored nodes, weights and (folded) inputs; the multiple grows with the size of the weights and of the
    factors of the basis functions, and with the number of operations. *)
Theorem C99_error : forall emin prec n X per w x y B I O, (0 < prec)%Z -> (emin <= 0)%Z -> (1 <= n)%nat -> stored_nodes emin prec n X ->
  shape x = [B; I] -> shape w = [O; I; n] -> (forall b i, (b < B)%nat -> (i < I)%nat -> representable emin prec (at_ x [b; i])) ->
  fl_polynomial_forward (nearest emin prec) n X per w x y ->
  let folded b i := fl_apply_periodicity (nearest emin prec) per (at_ x [b; i]) in
  exists z, Function_forward (mkFunc n (mkBasis (Some n) (lagrange_call n X)) None w) (tmap (fl_apply_periodicity (nearest emin prec) per) x) = Ok z /\
    shape z = [B; O] /\ shape y = [B; O] /\
    forall b o, (b < B)%nat -> (o < O)%nat ->
      Rabs (at_ y [b; o] - at_ z [b; o])
      <= rsum I (fun i => rsum n (fun j => amplification n X (folded b i) j * Rabs (at_ w [o; i; j]))) * growth emin prec (4 * n + I * n)
         + INR (I * n) * (bpow radix2 (emin - 1) * (1 + bpow radix2 (- prec)) ^ (I * n)).
Proof.
  intros emin prec n X per w x y B I O Hp He Hn [FX DX] Hx Hw Fx (B' & I' & O' & Hx' & Hw' & Hy & F) folded.
  rewrite Hx in Hx'. injection Hx' as <- <-. rewrite Hw in Hw'. injection Hw' as <-.
  destruct (function_spec n (mkBasis (Some n) (lagrange_call n X)) None w (tmap (fl_apply_periodicity (nearest emin prec) per) x) B I O Hn Hw Hx) as (z & Ez & Sz & V).
  exists z. do 3 (split; auto). intros b o Hb Ho. rewrite V by auto. cbn [apply_periodicity call tmap at_].
  apply interpolate_error; auto. intros i Hi. unfold fl_apply_periodicity. destruct per; auto. unfold fl_make_periodic. apply rnd_fmt; auto.
Qed.
Print Assumptions C99_error.

(** The multiple, while it is small. *)
Theorem C99_growth : forall emin prec k, INR k * (bpow radix2 (- prec) + bpow radix2 (emin - 1)) <= 1 / 2 ->
  growth emin prec k <= 2 * INR k * (bpow radix2 (- prec) + bpow radix2 (emin - 1)).
Proof.
  intros emin prec k. unfold growth. set (t := bpow radix2 (- prec) + bpow radix2 (emin - 1)).
  assert (T : 0 <= t) by (pose proof (bpow_ge_0 radix2 (- prec)); pose proof (bpow_ge_0 radix2 (emin - 1)); unfold t; lra). clearbody t.
  assert (G : INR k * t <= 1 / 2 -> (1 + t) ^ k * (1 - INR k * t) <= 1).
  { induction k as [|k IH]; intros H; [cbn; lra|]. rewrite S_INR in *. assert (0 <= INR k) by apply pos_INR. assert (0 <= INR k * t) by (apply Rmult_le_pos; auto).
    assert (L : INR k * t <= 1 / 2) by nra. specialize (IH L). cbn [pow]. assert (1 <= (1 + t) ^ k) by (apply pow_R1_Rle; lra).
    apply Rle_trans with ((1 + t) ^ k * (1 - INR k * t)); auto. rewrite (Rmult_comm (1 + t)), Rmult_assoc. apply Rmult_le_compat_l; [lra|].
    assert (0 <= t * t) by nra. assert (0 <= INR k * t * t) by nra. nra. }
  intros H. specialize (G H). set (h := INR k * t) in *. assert (1 <= (1 + t) ^ k) by (apply pow_R1_Rle; lra).
  assert (0 <= h) by (apply Rmult_le_pos; [apply pos_INR|auto]).
  replace (2 * INR k * t) with (2 * h) by (unfold h; ring). set (q := (1 + t) ^ k) in *. clearbody q h.
  assert (q <= 2) by nra. nra.
Qed.
Print Assumptions C99_growth.

(** At a node a layer with one input returns the stored weight, without error. *)
Theorem C99_nodes_exact : forall emin prec n X w x y B O k, (0 < prec)%Z -> (emin <= 0)%Z -> (1 <= n)%nat -> stored_nodes emin prec n X ->
  shape x = [B; 1%nat] -> shape w = [O; 1%nat; n] -> (k < n)%nat ->
  (forall o, (o < O)%nat -> representable emin prec (at_ w [o; 0%nat; k])) ->
  fl_polynomial_forward (nearest emin prec) n X None w x y ->
  forall b o, (b < B)%nat -> (o < O)%nat -> at_ x [b; 0%nat] = at_ X [k] -> at_ y [b; o] = at_ w [o; 0%nat; k].
Proof.
  intros emin prec n X w x y B O k Hp He Hn [FX DX] Hx Hw Hk Fw (B' & I' & O' & Hx' & Hw' & Hy & F) b o Hb Ho Hk'.
  rewrite Hx in Hx'. injection Hx' as <- <-. rewrite Hw in Hw'. injection Hw' as <-.
  exact (interpolate_at_node emin prec Hp He n X _ _ _ k Hn Hk FX DX (Fw o Ho) Hk' (F b o Hb Ho)).
Qed.
Print Assumptions C99_nodes_exact.

(** Two nodes at -1 and 1 and inputs in [[-1, 1]]: an affine map of every input. *)
Theorem C99_two_nodes : forall emin prec X w x y B I O, (0 < prec)%Z -> (emin <= 0)%Z -> at_ X [0%nat] = -1 -> at_ X [1%nat] = 1 ->
  shape x = [B; I] -> shape w = [O; I; 2%nat] ->
  (forall b i, (b < B)%nat -> (i < I)%nat -> representable emin prec (at_ x [b; i]) /\ -1 <= at_ x [b; i] <= 1) ->
  fl_polynomial_forward (nearest emin prec) 2 X None w x y ->
  forall b o, (b < B)%nat -> (o < O)%nat ->
    Rabs (at_ y [b; o] - rsum I (fun i => (at_ w [o; i; 0%nat] + at_ w [o; i; 1%nat]) / 2 + (at_ w [o; i; 1%nat] - at_ w [o; i; 0%nat]) / 2 * at_ x [b; i]))
    <= rsum I (fun i => Rabs (at_ w [o; i; 0%nat]) + Rabs (at_ w [o; i; 1%nat])) * growth emin prec (8 + I * 2)
       + INR (I * 2) * (bpow radix2 (emin - 1) * (1 + bpow radix2 (- prec)) ^ (I * 2)).
Proof.
  intros emin prec X w x y B I O Hp He X0 X1 Hx Hw Fx F b o Hb Ho.
  assert (S : stored_nodes emin prec 2 X).
  { split; [intros [|[|k]] Hk|intros [|[|k]] [|[|k']] Hk Hk' N]; try lia; rewrite ?X0, ?X1; try lra; try (apply fmt_1; auto).
    replace (-1) with (- (1)) by ring. apply fmt_opp, fmt_1; auto. }
  destruct (C99_error emin prec 2 X None w x y B I O Hp He ltac:(lia) S Hx Hw ltac:(intros; now apply Fx) F) as (z & Ez & Sz & Sy & E).
  specialize (E b o Hb Ho). cbn [fl_apply_periodicity] in E.
  destruct (function_spec 2 (mkBasis (Some 2%nat) (lagrange_call 2 X)) None w (tmap (fun v => v) x) B I O ltac:(lia) Hw Hx) as (z' & Ez' & Sz' & V).
  cbn [fl_apply_periodicity] in Ez. unfold fl_apply_periodicity in Ez. rewrite Ez in Ez'. injection Ez' as <-.
  rewrite V in E by auto. cbn [apply_periodicity call tmap at_] in E.
  erewrite rsum_ext with (g := fun i => (at_ w [o; i; 0%nat] + at_ w [o; i; 1%nat]) / 2 + (at_ w [o; i; 1%nat] - at_ w [o; i; 0%nat]) / 2 * at_ x [b; i]) in E.
  2:{ intros i Hi. unfold lagrange_call, denominators. cbn. rewrite X0, X1. field. }
  eapply Rle_trans; [exact E|]. apply Rplus_le_compat_r. apply Rmult_le_compat_r.
  { unfold growth. assert (1 <= (1 + (bpow radix2 (- prec) + bpow radix2 (emin - 1))) ^ (8 + I * 2)); [|lra]. apply pow_R1_Rle.
    pose proof (bpow_ge_0 radix2 (- prec)); pose proof (bpow_ge_0 radix2 (emin - 1)). lra. }
  apply rsum_le. intros i Hi. destruct (Fx b i Hb Hi) as [_ R].
  assert (A : forall j, (j < 2)%nat -> amplification 2 X (at_ x [b; i]) j = 1).
  { intros [|[|j]] Hj; try lia; unfold amplification; cbn; rewrite X0, X1.
    - rewrite Rmax_left; [ring|]. replace (-1 - 1) with (-(2)) by ring. apply Rabs_le. split; [apply (Rmult_le_reg_r 2); [lra|]; field_simplify; lra|apply (Rmult_le_reg_r 2); [lra|]; field_simplify; lra].
    - rewrite Rmax_left; [ring|]. apply Rabs_le. lra. }
  cbn [rsum]. rewrite !A by lia. lra.
Qed.
Print Assumptions C99_two_nodes.

Lemma choose_each k (P : nat -> R -> Prop) : (forall j, exists r, P j r) -> exists b, forall j, (j < k)%nat -> P j (b j).
Proof.
  intros H. induction k as [|k [b IH]]; [exists (fun _ => 0); intros; lia|]. destruct (H k) as [r Hr].
  exists (fun j => if Nat.eqb j k then r else b j). intros j Hj. destruct (Nat.eqb_spec j k) as [->|]; auto. apply IH. lia.
Qed.

Lemma interpolate_exists rnd n X I xs ws : (1 <= n)%nat -> (1 <= I)%nat -> exists r, fl_interpolate rnd n X I xs ws r.
Proof.
  intros Hn HI. assert (C : forall v j, exists r, fl_lagrange_call rnd n X v j r).
  { intros v j. unfold fl_lagrange_call. destruct (Nat.eqb n 1); [eauto|]. apply product_exists. destruct n; [lia|easy]. }
  assert (Bi : forall k, exists b, forall i j, (i < k)%nat -> (j < n)%nat -> fl_lagrange_call rnd n X (xs i) j (b i j)).
  { induction k as [|k [b IH]]; [exists (fun _ _ => 0); intros; lia|]. destruct (choose_each n (fl_lagrange_call rnd n X (xs k)) (C (xs k))) as [c Hc].
    exists (fun i => if Nat.eqb i k then c else b i). intros i j Hi Hj. destruct (Nat.eqb_spec i k) as [->|]; auto. apply IH; lia. }
  destruct (Bi I) as [b Hb]. destruct (contraction_exists rnd (flat_map (fun i => map (fun j => (b i j, ws i j)) (seq 0 n)) (seq 0 I))) as [s Hs].
  - destruct I; [lia|]. destruct n; [lia|]. easy.
  - exists s, b. auto.
Qed.

Lemma entries_exist B O (P : nat -> nat -> R -> Prop) : (forall b o, exists r, P b o r) ->
  exists y, shape y = [B; O] /\ forall b o, (b < B)%nat -> (o < O)%nat -> P b o (at_ y [b; o]).
Proof.
  intros H. destruct (choose_each (B * O)%nat (fun k r => P (k / O)%nat (k mod O)%nat r)) as [v Hv]; [auto|].
  exists (mkT [B; O] (fun ix => match ix with [b; o] => v (b * O + o)%nat | _ => 0 end)). split; auto. intros b o Hb Ho. cbn [at_].
  specialize (Hv (b * O + o)%nat). cbv beta in Hv.
  rewrite Nat.div_add_l, (Nat.div_small o O), Nat.add_0_r in Hv by lia. rewrite (Nat.add_comm (b * O)), Nat.mod_add, Nat.mod_small in Hv by lia.
  rewrite (Nat.add_comm (b * O)). apply Hv. rewrite Nat.add_comm. nia.
Qed.

(** Non-vacuity: some result exists, whatever the (non-empty) layer. *)
Theorem C99_exists : forall emin prec n X per w x B I O, (1 <= n)%nat -> (1 <= I)%nat -> shape x = [B; I] -> shape w = [O; I; n] ->
  exists y, fl_polynomial_forward (nearest emin prec) n X per w x y.
Proof.
  intros emin prec n X per w x B I O Hn HI Hx Hw.
  destruct (entries_exist B O (fun b o => fl_interpolate (nearest emin prec) n X I (fun i => fl_apply_periodicity (nearest emin prec) per (at_ x [b; i]))
     (fun i j => at_ w [o; i; j]))) as (y & Sy & Hy); [intros; now apply interpolate_exists|].
  exists y, B, I, O. auto.
Qed.
Print Assumptions C99_exists.

(** float32: nodes -1 and 1, a batch of one, input 1/2 and weights 1 and 3: the hypotheses hold and the computed value is
    within 2^-16 of 5/2. *)
Example C99_case : let X := mkT [2%nat] (fun ix => match ix with [0%nat] => -1 | _ => 1 end) in
  let w := mkT [1%nat; 1%nat; 2%nat] (fun ix => match ix with [_; _; 0%nat] => 1 | _ => 3 end) in
  let x := mkT [1%nat; 1%nat] (fun _ => 1 / 2) in
  stored_nodes (-149) 24 2 X /\ (exists y, fl_polynomial_forward float32 2 X None w x y) /\
  forall y, fl_polynomial_forward float32 2 X None w x y -> Rabs (at_ y [0%nat; 0%nat] - 5 / 2) <= bpow radix2 (-16).
Proof.
  intros X w x. split; [|split].
  - split; [intros [|[|k]] Hk|intros [|[|k]] [|[|k']] Hk Hk' N]; try lia; cbn; try lra; try (apply fmt_1; lia).
    replace (-1) with (- (1)) by ring. apply fmt_opp, fmt_1; lia.
  - apply (C99_exists (-149) 24 2 X None w x 1 1 1); auto.
  - intros y Hy.
    assert (H : forall b i, (b < 1)%nat -> (i < 1)%nat -> representable (-149) 24 (at_ x [b; i]) /\ -1 <= at_ x [b; i] <= 1).
    { intros b i _ _. split; [|cbn; lra]. change (at_ x [b; i]) with (1 / 2). replace (1 / 2) with (bpow radix2 (-1)) by (cbn; lra). apply generic_format_FLT_bpow; [reflexivity|lia]. }
    pose proof (C99_two_nodes (-149) 24 X w x y 1 1 1 ltac:(lia) ltac:(lia) eq_refl eq_refl eq_refl eq_refl H Hy 0%nat 0%nat ltac:(lia) ltac:(lia)) as E.
    cbn [rsum at_ w x] in E. rewrite (Rabs_right 1), (Rabs_right 3) in E by lra. change (8 + 1 * 2)%nat with 10%nat in E. change (1 * 2)%nat with 2%nat in E.
    assert (T : bpow radix2 (-149 - 1) <= bpow radix2 (- (24))) by (apply bpow_le; lia).
    assert (T' : bpow radix2 (-149 - 1) <= bpow radix2 (-24)) by (apply bpow_le; lia).
    assert (Q : bpow radix2 (-24) = / 16777216) by reflexivity. assert (Q' : bpow radix2 (-16) = / 65536) by reflexivity.
    pose proof (C99_growth (-149) 24 10) as G. cbn [INR] in *. change (- (24))%Z with (-24)%Z in *. rewrite Q in *. rewrite Q'.
    pose proof (bpow_ge_0 radix2 (-149 - 1)) as T0. set (t := bpow radix2 (-149 - 1)) in *. clearbody t.
    assert (G' := G ltac:(lra)).
    replace (0 + ((1 + 3) / 2 + (3 - 1) / 2 * (1 / 2))) with (5 / 2) in E by lra.
    assert ((1 + / 16777216) ^ 2 <= 2) by (cbn; lra). assert (t * (1 + / 16777216) ^ 2 <= t * 2) by (apply Rmult_le_compat_l; lra).
    lra.
Qed.
