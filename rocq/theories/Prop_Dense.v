(** * Networks of continuous layers approximate every continuous function (C88). *)
From Coq Require Import String Reals ZArith List Lia Lra Psatz Bool Arith.
From Verif Require Import Spec Tensor Utils LagrangePolynomial Basis PolynomialLayers ProductLayer LagrangeND Layers Networks Observe ObserveNet
  SumFacts TensorFacts LagrangeFacts LayerFacts SegmentFacts LayerProofs HeapFacts NetFacts Prop_Init CompactFacts Prop_Bounds Prop_Approx Prop_Represent
  Prop_Universal.
Import ListNotations.
Local Open Scope R_scope.

(** ** A partition of unity *)
Definition clamp1 (u : R) : R := Rmax 0 (Rmin 1 u).
Definition coord (Q : nat) (x : R) : R := (x + 1) * INR Q / 2.
(** The tent over point [s] of the grid of [Q+1] points. *)
Definition tent (Q s : nat) (x : R) : R := clamp1 (coord Q x - INR s + 1) - clamp1 (coord Q x - INR s).

Lemma clamp1_range u : 0 <= clamp1 u <= 1.
Proof. unfold clamp1, Rmax, Rmin. repeat destruct Rle_dec; lra. Qed.
Lemma clamp1_mono u v : u <= v -> clamp1 u <= clamp1 v.
Proof. unfold clamp1, Rmax, Rmin. repeat destruct Rle_dec; lra. Qed.
Lemma clamp1_hi u : 1 <= u -> clamp1 u = 1.
Proof. unfold clamp1, Rmax, Rmin. repeat destruct Rle_dec; lra. Qed.
Lemma clamp1_lo u : u <= 0 -> clamp1 u = 0.
Proof. unfold clamp1, Rmax, Rmin. repeat destruct Rle_dec; lra. Qed.
Lemma clamp1_lip u v : Rabs (clamp1 u - clamp1 v) <= Rabs (u - v).
Proof. unfold clamp1, Rmax, Rmin, Rabs. repeat destruct Rle_dec; repeat destruct Rcase_abs; lra. Qed.

Lemma tent_range Q s x : 0 <= tent Q s x <= 1.
Proof.
  unfold tent. pose proof (clamp1_range (coord Q x - INR s + 1)). pose proof (clamp1_range (coord Q x - INR s)).
  pose proof (clamp1_mono (coord Q x - INR s) (coord Q x - INR s + 1) ltac:(lra)). lra.
Qed.
Lemma tent_sum Q x : -1 <= x <= 1 -> rsum (S Q) (fun s => tent Q s x) = 1.
Proof.
  intros Hx. pose proof (pos_INR Q) as PQ.
  assert (T : forall m, rsum m (fun s => tent Q s x) = clamp1 (coord Q x + 1) - clamp1 (coord Q x - INR m + 1)).
  { induction m as [|m IH]; cbn [rsum]; [simpl (INR 0); replace (coord Q x - 0 + 1) with (coord Q x + 1) by ring; ring|].
    rewrite IH. unfold tent. rewrite S_INR. replace (coord Q x - (INR m + 1) + 1) with (coord Q x - INR m) by ring. ring. }
  rewrite T, clamp1_hi, clamp1_lo; unfold coord; rewrite ?S_INR; nra.
Qed.
Lemma tent_support Q s x : (1 <= Q)%nat -> tent Q s x <> 0 -> Rabs (knot Q s - x) < 2 / INR Q.
Proof.
  intros HQ T. assert (PQ := INR_pos Q HQ).
  assert (A : -1 < coord Q x - INR s < 1).
  { destruct (Rle_or_lt (coord Q x - INR s) (-1)) as [C|C]; [exfalso; apply T; unfold tent; rewrite !clamp1_lo; lra|].
    destruct (Rle_or_lt 1 (coord Q x - INR s)) as [D|D]; [exfalso; apply T; unfold tent; rewrite !clamp1_hi; lra|]. lra. }
  replace (knot Q s - x) with (- (coord Q x - INR s) * (2 / INR Q)) by (unfold knot, coord; field; lra).
  assert (0 < 2 / INR Q) by (apply Rdiv_lt_0_compat; lra).
  rewrite Rabs_mult, (Rabs_pos_eq (2 / INR Q)) by lra. assert (Rabs (- (coord Q x - INR s)) < 1) by (apply Rabs_def1; lra). nra.
Qed.
Lemma tent_continuous Q s : continuity (tent Q s).
Proof.
  intros x. apply continuity_eps. intros eps He. set (c := INR Q + 1). assert (Pc : 0 < c) by (unfold c; pose proof (pos_INR Q); lra).
  exists (eps / (2 * c)). split; [apply Rdiv_lt_0_compat; lra|]. intros y Hy. unfold tent.
  pose proof (clamp1_lip (coord Q y - INR s + 1) (coord Q x - INR s + 1)) as A. pose proof (clamp1_lip (coord Q y - INR s) (coord Q x - INR s)) as B.
  replace (coord Q y - INR s + 1 - (coord Q x - INR s + 1)) with (coord Q y - coord Q x) in A by ring.
  replace (coord Q y - INR s - (coord Q x - INR s)) with (coord Q y - coord Q x) in B by ring.
  assert (D : Rabs (coord Q y - coord Q x) <= c * Rabs (y - x)).
  { replace (coord Q y - coord Q x) with (INR Q / 2 * (y - x)) by (unfold coord; field). pose proof (pos_INR Q).
    rewrite Rabs_mult, Rabs_pos_eq by lra. apply Rmult_le_compat_r; [apply Rabs_pos|unfold c; lra]. }
  apply (Rmult_lt_compat_l c) in Hy; auto. replace (c * (eps / (2 * c))) with (eps / 2) in Hy by (field; lra).
  match goal with |- Rabs ?e < _ => replace e with ((clamp1 (coord Q y - INR s + 1) - clamp1 (coord Q x - INR s + 1)) - (clamp1 (coord Q y - INR s) - clamp1 (coord Q x - INR s))) by ring end.
  eapply Rle_lt_trans; [apply Rabs_triang|]. rewrite Rabs_Ropp. lra.
Qed.

(** ** Sums over all cells *)
Definition digit (B N i : nat) : nat := ((N / B ^ i) mod B)%nat.

Lemma digit_high B d a j : (j < B ^ d)%nat -> (a < B)%nat -> digit B (a * B ^ d + j) d = a.
Proof.
  intros Hj Ha. unfold digit. assert (B ^ d <> 0)%nat by lia. rewrite Nat.add_comm, Nat.div_add by auto. rewrite Nat.div_small, Nat.add_0_l by auto. now apply Nat.mod_small.
Qed.
Lemma digit_low B d a j i : (B <> 0)%nat -> (i < d)%nat -> digit B (a * B ^ d + j) i = digit B j i.
Proof.
  intros HB Hi. unfold digit. assert (B ^ i <> 0)%nat by now apply Nat.pow_nonzero.
  replace (a * B ^ d)%nat with (a * B ^ (d - i - 1) * B * B ^ i)%nat.
  - rewrite Nat.add_comm, Nat.div_add, Nat.mod_add by auto. reflexivity.
  - replace d with (d - i - 1 + (1 + i))%nat at 2 by lia. rewrite Nat.pow_add_r, Nat.pow_add_r. cbn [Nat.pow]. ring.
Qed.
Lemma digit_lt B N i : (B <> 0)%nat -> (digit B N i < B)%nat.
Proof. intros. now apply Nat.mod_upper_bound. Qed.

Lemma sum_cells B d (a : nat -> nat -> R) : (B <> 0)%nat ->
  rsum (B ^ d) (fun N => rprod d (fun i => a i (digit B N i))) = rprod d (fun i => rsum B (a i)).
Proof.
  intros HB. induction d as [|d IH]; [cbn; ring|]. cbn [Nat.pow rprod]. rewrite rsum_mul, <- IH.
  rewrite Rmult_comm, <- rsum_scal_r. apply rsum_ext. intros s Hs. cbn beta. rewrite <- rsum_scal. apply rsum_ext. intros j Hj. cbn [rprod].
  rewrite digit_high by auto. rewrite Rmult_comm. f_equal.
  apply rprod_ext. intros i Hi. now rewrite digit_low.
Qed.

Lemma rprod_close d (a : nat -> R) eta : 0 <= eta -> (forall i, (i < d)%nat -> 0 <= a i <= 1) ->
  0 <= rprod d a <= 1 /\ 0 <= rprod d (fun i => a i + eta) - rprod d a <= (1 + eta) ^ d - 1.
Proof.
  intros He Ha. induction d as [|d IH]; cbn [rprod pow]; [lra|].
  destruct IH as (A & B); [intros; apply Ha; lia|]. specialize (Ha d ltac:(lia)).
  assert (E1 : 1 <= (1 + eta) ^ d) by (apply pow_R1_Rle; lra).
  split; [nra|]. replace (rprod d (fun i => a i + eta) * (a d + eta) - rprod d a * a d)
    with ((rprod d (fun i => a i + eta) - rprod d a) * (a d + eta) + rprod d a * eta) by ring.
  set (D := rprod d (fun i => a i + eta) - rprod d a) in *. set (A0 := rprod d a) in *. set (P := (1 + eta) ^ d) in *.
  split; [apply Rplus_le_le_0_compat; apply Rmult_le_pos; lra|].
  assert (D * (a d + eta) <= (P - 1) * (1 + eta)) by (apply Rmult_le_compat; lra).
  assert (A0 * eta <= 1 * eta) by (apply Rmult_le_compat_r; lra). lra.
Qed.

Lemma exp_sum_ln d (a : nat -> R) : (forall i, (i < d)%nat -> 0 < a i) -> exp (rsum d (fun i => ln (a i))) = rprod d a.
Proof.
  intros Ha. induction d as [|d IH]; cbn [rsum rprod]; [apply exp_0|]. rewrite exp_plus, IH, exp_ln; auto.
Qed.

Lemma enough_points delta : 0 < delta -> exists Q, (1 <= Q)%nat /\ 2 / INR Q < delta.
Proof.
  intros Hd. destruct (archimed (2 / delta)) as [Ar _]. assert (P : 0 < 2 / delta) by (apply Rdiv_lt_0_compat; lra).
  exists (Z.to_nat (up (2 / delta))). assert (U : (0 < up (2 / delta))%Z) by (apply lt_IZR; lra). split; [lia|].
  rewrite INR_IZR_INZ, Z2Nat.id by lia. assert (0 < IZR (up (2 / delta))) by lra.
  apply (Rmult_lt_reg_r (IZR (up (2 / delta)))); auto. unfold Rdiv at 1. rewrite Rmult_assoc, Rinv_l, Rmult_1_r by lra.
  apply (Rmult_lt_compat_l delta) in Ar; auto. replace (delta * (2 / delta)) with 2 in Ar by (field; lra). lra.
Qed.

Lemma small_eta d F eps : 0 < F -> 0 < eps -> exists eta, 0 < eta /\ F * ((1 + eta) ^ d - 1) < eps.
Proof.
  intros HF He. assert (C : continuity (fun y => (1 + y) ^ d)) by reg.
  destruct (proj1 (continuity_eps _ _) (C 0) (eps / F) ltac:(apply Rdiv_lt_0_compat; lra)) as (e & He0 & P).
  exists (e / 2). split; [lra|]. specialize (P (e / 2) ltac:(rewrite Rminus_0_r, Rabs_pos_eq; lra)).
  rewrite Rplus_0_r, pow1 in P. apply Rabs_def2 in P. destruct P as (P & _).
  apply (Rmult_lt_compat_l F) in P; auto. replace (F * (eps / F)) with eps in P by (field; lra). exact P.
Qed.

Lemma superposition d m (f : nat -> (nat -> R) -> R) eps : (1 <= d)%nat -> (forall o, (o < m)%nat -> continuous_vec d (f o)) -> 0 < eps ->
  exists P (h g : nat -> nat -> R -> R), (1 <= P)%nat /\ (forall c i, continuity (h c i)) /\ (forall o c, continuity (g o c)) /\
    (forall c v, Rabs (rsum d (fun i => h c i (v i))) <= 1 / 2) /\
    forall v o, (o < m)%nat -> (forall i, (i < d)%nat -> -1 <= v i <= 1) ->
      Rabs (rsum P (fun c => g o c (rsum d (fun i => h c i (v i)))) - f o v) < eps.
Proof.
  intros Hd Hf He. destruct (uniformly_continuous_all d m f (eps / 2) Hf ltac:(lra)) as (delta & Hdel & U).
  destruct (enough_points delta Hdel) as (Q & HQ & DQ).
  set (B := S Q). assert (HB : B <> 0%nat) by (unfold B; lia). set (P := (B ^ d)%nat).
  set (t := fun N i => knot Q (digit B N i)).
  set (F := rsum m (fun o => rsum P (fun N => Rabs (f o (t N)))) + 1).
  assert (F0 : forall o, (o < m)%nat -> rsum P (fun N => Rabs (f o (t N))) <= F).
  { intros o Ho. assert (A : forall o, 0 <= rsum P (fun N => Rabs (f o (t N)))) by (intros; apply rsum_nonneg; intros; apply Rabs_pos).
    unfold F. clear - A Ho. induction m as [|m IH]; [lia|]. cbn [rsum]. pose proof (A m).
    assert (0 <= rsum m (fun o => rsum P (fun N => Rabs (f o (t N))))) by (apply rsum_nonneg; auto).
    destruct (Nat.eq_dec o m) as [->|N]; [lra|]. specialize (IH ltac:(lia)). lra. }
  assert (F1 : 0 < F). { unfold F. assert (0 <= rsum m (fun o => rsum P (fun N => Rabs (f o (t N))))) by (apply rsum_nonneg; intros; apply rsum_nonneg; intros; apply Rabs_pos). lra. }
  destruct (small_eta d F (eps / 2) F1 ltac:(lra)) as (eta & He0 & Heta).
  set (La := Rabs (ln eta) + Rabs (ln (1 + eta)) + 1). assert (La0 : 0 < La) by (unfold La; pose proof (Rabs_pos (ln eta)); pose proof (Rabs_pos (ln (1 + eta))); lra).
  assert (Pd := INR_pos d Hd). set (K := 2 * INR d * La). assert (K0 : 0 < K) by (unfold K; apply Rmult_lt_0_compat; lra).
  assert (Ln : forall s x, Rabs (ln (tent Q s x + eta)) <= La).
  { intros s x. pose proof (tent_range Q s x) as T. assert (A : ln eta <= ln (tent Q s x + eta)).
    { destruct (Req_dec (tent Q s x) 0) as [->|N]; [rewrite Rplus_0_l; lra|]. apply Rlt_le, ln_increasing; lra. }
    assert (A' : ln (tent Q s x + eta) <= ln (1 + eta)).
    { destruct (Req_dec (tent Q s x) 1) as [->|N]; [lra|]. apply Rlt_le, ln_increasing; lra. }
    unfold La. pose proof (Rle_abs (ln (1 + eta))). pose proof (Rle_abs (- ln eta)) as X. rewrite Rabs_Ropp in X.
    pose proof (Rabs_pos (ln eta)). pose proof (Rabs_pos (ln (1 + eta))). apply Rabs_le. lra. }
  exists P, (fun c i x => ln (tent Q (digit B c i) x + eta) / K), (fun o c y => f o (t c) * exp (K * y)).
  split; [unfold P; pose proof (Nat.pow_nonzero B d HB); lia|]. split; [|split; [|split]].
  - intros c i. intros x. apply (continuity_pt_mult (fun x => ln (tent Q (digit B c i) x + eta)) (fun _ => / K)); [|apply continuity_pt_const; intros ? ?; reflexivity].
    apply (continuity_pt_comp (fun x => tent Q (digit B c i) x + eta) ln).
    + apply (continuity_pt_plus (tent Q (digit B c i)) (fun _ => eta)); [apply tent_continuous|apply continuity_pt_const; intros ? ?; reflexivity].
    + apply derivable_continuous_pt. exists (/ (tent Q (digit B c i) x + eta)). apply derivable_pt_lim_ln. pose proof (tent_range Q (digit B c i) x). lra.
  - intros o c. reg.
  - intros c v. rewrite (rsum_ext d _ (fun i => / K * ln (tent Q (digit B c i) (v i) + eta))) by (intros; field; lra). rewrite rsum_scal, Rabs_mult, Rabs_pos_eq by (apply Rlt_le, Rinv_0_lt_compat; auto).
    assert (A : Rabs (rsum d (fun i => ln (tent Q (digit B c i) (v i) + eta))) <= INR d * La).
    { eapply Rle_trans; [apply rsum_abs|]. rewrite <- rsum_const. apply rsum_le. auto. }
    apply (Rmult_le_reg_l K); auto. rewrite <- Rmult_assoc, Rinv_r, Rmult_1_l by lra. unfold K. lra.
  - intros v o Ho Hv.
    rewrite (rsum_ext P _ (fun c => f o (t c) * rprod d (fun i => tent Q (digit B c i) (v i) + eta))).
    2: { intros c Hc. f_equal. rewrite <- exp_sum_ln by (intros i Hi; pose proof (tent_range Q (digit B c i) (v i)); lra). f_equal.
         rewrite <- rsum_scal. apply rsum_ext. intros i Hi. field. lra. }
    assert (One : rsum P (fun c => rprod d (fun i => tent Q (digit B c i) (v i))) = 1).
    { unfold P. rewrite (sum_cells B d (fun i s => tent Q s (v i)) HB). apply rprod_one. intros i Hi. now apply tent_sum, Hv. }
    assert (Cl : forall c, 0 <= rprod d (fun i => tent Q (digit B c i) (v i)) <= 1 /\
       0 <= rprod d (fun i => tent Q (digit B c i) (v i) + eta) - rprod d (fun i => tent Q (digit B c i) (v i)) <= (1 + eta) ^ d - 1).
    { intros c. apply (rprod_close d (fun i => tent Q (digit B c i) (v i)) eta); [lra|]. intros. apply tent_range. }
    assert (E1 : Rabs (rsum P (fun c => f o (t c) * rprod d (fun i => tent Q (digit B c i) (v i) + eta)) - rsum P (fun c => f o (t c) * rprod d (fun i => tent Q (digit B c i) (v i)))) < eps / 2).
    { rewrite <- rsum_minus. eapply Rle_lt_trans; [apply rsum_abs|].
      apply Rle_lt_trans with (F * ((1 + eta) ^ d - 1)); auto.
      apply Rle_trans with (rsum P (fun c => Rabs (f o (t c))) * ((1 + eta) ^ d - 1)).
      - rewrite <- rsum_scal_r. apply rsum_le. intros c Hc. rewrite <- Rmult_minus_distr_l, Rabs_mult. apply Rmult_le_compat_l; [apply Rabs_pos|].
        destruct (Cl c) as (_ & C2). rewrite Rabs_pos_eq; lra.
      - apply Rmult_le_compat_r; auto. pose proof (pow_R1_Rle (1 + eta) d ltac:(lra)). lra. }
    assert (E2 : Rabs (rsum P (fun c => f o (t c) * rprod d (fun i => tent Q (digit B c i) (v i))) - f o v) <= eps / 2).
    { replace (f o v) with (rsum P (fun c => f o v * rprod d (fun i => tent Q (digit B c i) (v i)))) by (rewrite rsum_scal, One; ring).
      rewrite <- rsum_minus. eapply Rle_trans; [apply rsum_abs|].
      apply Rle_trans with (rsum P (fun c => eps / 2 * rprod d (fun i => tent Q (digit B c i) (v i)))); [|rewrite rsum_scal, One; lra].
      apply rsum_le. intros c Hc. destruct (Cl c) as (C1 & _). rewrite <- Rmult_minus_distr_r, Rabs_mult, (Rabs_pos_eq (rprod _ _)) by lra.
      destruct (Req_dec (rprod d (fun i => tent Q (digit B c i) (v i))) 0) as [->|Nz]; [lra|].
      apply Rmult_le_compat_r; [lra|]. apply Rlt_le, U; auto.
      intros i Hi. eapply Rlt_trans; [|exact DQ]. apply tent_support; auto. intros Z. apply Nz. now apply (rprod_zero d _ i). }
    match goal with |- Rabs (?X - ?Y) < _ => replace (X - Y) with ((X - rsum P (fun c => f o (t c) * rprod d (fun i => tent Q (digit B c i) (v i)))) +
      (rsum P (fun c => f o (t c) * rprod d (fun i => tent Q (digit B c i) (v i))) - Y)) by ring end.
    eapply Rle_lt_trans; [apply Rabs_triang|]. lra.
Qed.

(** ** Layers that hold given functions *)
Lemma abs_inv a b : Rabs a <= b -> - b <= a <= b.
Proof. unfold Rabs. destruct Rcase_abs; lra. Qed.

Lemma sampled_layer c n I O (f : nat -> nat -> R -> R) eps : sum_class c -> (1 <= n)%nat -> (c = PiecewisePolynomial -> 2 <= n)%nat -> (1 <= I)%nat -> (1 <= O)%nat ->
  (forall o i, (o < O)%nat -> (i < I)%nat -> continuity (f o i)) -> 0 < eps ->
  exists S0, forall S, (1 <= S)%nat -> (S0 <= S)%nat -> exists l, held l /\ cfg_of l = pw_slot c n I O S None /\
    forall v o, (o < O)%nat -> (forall i, (i < I)%nat -> -1 <= v i <= 1) -> Rabs (layer_out l v o - rsum I (fun i => f o i (v i))) <= eps.
Proof.
  intros Hc Hn Hn2 HI HO Hf He.
  assert (A : forall Om, (Om <= O)%nat -> exists S0, forall l o v, held l -> pw_length l = 2 -> pw_periodicity l = None -> sum_class (pw_cls l) -> (o < pw_out l)%nat -> (o < Om)%nat ->
    pw_n l = n -> pw_in l = I -> (S0 <= pw_segments l)%nat -> samples l o (f o) -> (forall i, (i < I)%nat -> -1 <= v i <= 1) ->
    Rabs (layer_out l v o - rsum I (fun i => f o i (v i))) <= eps).
  { induction Om as [|Om IH]; intros HOm; [exists 0%nat; intros; lia|]. destruct (IH ltac:(lia)) as (S1 & P1).
    destruct (C80_converges n I (f Om) eps (fun i x Hi _ => Hf Om i ltac:(lia) Hi x) He) as (S2 & P2).
    exists (Nat.max S1 S2). intros l o v H1 H2 H3 H4 H5 H6 H7 H8 H9 H10 H11. destruct (Nat.eq_dec o Om) as [->|N].
    - apply P2; auto. lia.
    - apply P1; auto; lia. }
  destruct (A O ltac:(lia)) as (S0 & P). exists S0. intros S HS HS0.
  destruct (C80_sampling_layers_exist c n I O S f Hc Hn Hn2 HI HO HS) as (l & H1 & H2 & H3 & H4 & H5 & H6 & H7 & H8 & H9).
  exists l. split; auto. split; [unfold cfg_of, pw_slot; congruence|]. intros v o Ho Hv.
  apply P; auto; try congruence; try lia.
Qed.

(** Continuous layers can pass their inputs on unchanged. *)
Lemma identity_layer n H S : (2 <= n)%nat -> (1 <= H)%nat -> (1 <= S)%nat -> exists l, held l /\ cfg_of l = pw_slot PiecewisePolynomial n H H S None /\
  forall v o, (o < H)%nat -> (forall i, (i < H)%nat -> -1 <= v i <= 1) -> layer_out l v o = v o.
Proof.
  intros Hn HH HS.
  destruct (C80_sampling_layers_exist PiecewisePolynomial n H H S (fun o i x => if Nat.eqb i o then x else 0) ltac:(now left) ltac:(lia) ltac:(auto) HH HH HS)
    as (l & H1 & H2 & H3 & H4 & H5 & H6 & H7 & H8 & H9).
  exists l. split; auto. split; [unfold cfg_of, pw_slot; congruence|]. intros v o Ho Hv.
  assert (B : Rabs (layer_out l v o - rsum (pw_in l) (fun i => if Nat.eqb i o then v i else 0)) <= INR (pw_in l) * (2 * INR (pw_n l) * 0)).
  { apply (C80_near_best_approximation l o (fun i x => if Nat.eqb i o then x else 0) (fun i _ x => if Nat.eqb i o then x else 0)); auto; try lia.
    - rewrite H4. now left.
    - intros i _. rewrite H5. destruct (Nat.eqb i o).
      + apply (poly_lt_mono 2); auto. exists (fun k => if Nat.eqb k 1 then 1 else 0). intros x. cbn. ring.
      + apply poly_lt_const. lia.
    - intros i s y _ _ _. rewrite Rminus_diag_eq, Rabs_R0 by auto. lra.
    - rewrite H6. auto. }
  rewrite !Rmult_0_r in B. rewrite H6, (rsum_single H o), Nat.eqb_refl in B by (auto; intros i Hi N; apply Nat.eqb_neq in N; now rewrite N).
  pose proof (Rabs_pos (layer_out l v o - v o)). assert (E : Rabs (layer_out l v o - v o) = 0) by lra.
  destruct (Req_dec (layer_out l v o - v o) 0) as [Z|Z]; [lra|]. now apply Rabs_no_R0 in Z.
Qed.

(** ** C88 *)
Theorem C88_mlp_universal : forall n d m (f : nat -> (nat -> R) -> R) eps,
  (2 <= n)%nat -> (1 <= d)%nat -> (1 <= m)%nat -> (forall o, (o < m)%nat -> continuous_vec d (f o)) -> 0 < eps ->
  exists H0, forall H, (H0 <= H)%nat -> exists s0, forall g K si sh so h0,
    wf_heap h0 -> (s0 <= si)%nat -> (1 <= sh)%nat -> (s0 <= so)%nat ->
    exists net h1 h,
      HighOrderMLP g (layers_only "continuous" n d m K H si sh so) h0 = Ok (net, h1) /\ retrained h1 h /\
      forall x B, shape x = [B; d] -> (forall b i, (b < B)%nat -> (i < d)%nat -> -1 <= at_ x [b; i] <= 1) ->
        exists y, call h net x = Ok y /\ shape y = [B; m] /\
          forall b o, (b < B)%nat -> (o < m)%nat -> Rabs (at_ y [b; o] - f o (row x b)) < eps.
Proof.
  intros n d m f eps Hn Hd Hm Hf He.
  destruct (superposition d m f (eps / 3) Hd Hf ltac:(lra)) as (P & hh & gg & HP & Ch & Cg & Rg & Ap).
  exists P. intros H HH.
  set (h' := fun c i => if Nat.ltb c P then hh c i else fun _ => 0). set (g' := fun o c => if Nat.ltb c P then gg o c else fun _ => 0).
  assert (C0 : continuity (fun _ => 0)) by (apply continuity_const; intros ? ?; reflexivity).
  assert (Ch' : forall c i, continuity (h' c i)) by (intros c i; unfold h'; destruct (Nat.ltb c P); auto).
  assert (Cg' : forall o c, continuity (g' o c)) by (intros o c; unfold g'; destruct (Nat.ltb c P); auto).
  (* the outer functions are uniformly continuous, all at once *)
  assert (PH : 0 < INR H) by (apply lt_0_INR; lia).
  assert (Un : exists e, 0 < e /\ forall o c x y, (o < m)%nat -> (c < H)%nat -> -1 <= x <= 1 -> -1 <= y <= 1 -> Rabs (x - y) < e -> Rabs (g' o c x - g' o c y) < eps / 3 / INR H).
  { assert (Pe : 0 < eps / 3 / INR H) by (apply Rdiv_lt_0_compat; lra).
    assert (A : forall M, exists e, 0 < e /\ forall o c x y, (o < M)%nat -> (c < H)%nat -> -1 <= x <= 1 -> -1 <= y <= 1 -> Rabs (x - y) < e -> Rabs (g' o c x - g' o c y) < eps / 3 / INR H).
    { induction M as [|M (e & e0 & P1)]; [exists 1; split; [lra|intros; lia]|].
      destruct (uniform_all H (g' M) (eps / 3 / INR H) (fun i x _ _ => Cg' M i x) Pe) as (e' & e0' & P2).
      exists (Rmin e e'). split; [now apply Rmin_glb_lt|]. intros o c x y Ho Hc Hx Hy D. destruct (Nat.eq_dec o M) as [->|N].
      - apply P2; auto. eapply Rlt_le_trans; [exact D|apply Rmin_r].
      - apply P1; auto; [lia|]. eapply Rlt_le_trans; [exact D|apply Rmin_l]. }
    apply A. }
  destruct Un as (e & e0 & Un). set (e1 := Rmin (e / 2) (1 / 2)). assert (e10 : 0 < e1) by (apply Rmin_glb_lt; lra).
  assert (e1a : e1 <= e / 2) by apply Rmin_l. assert (e1b : e1 <= 1 / 2) by apply Rmin_r.
  destruct (sampled_layer PiecewisePolynomial n d H h' e1 ltac:(now left) ltac:(lia) ltac:(auto) Hd ltac:(lia) ltac:(auto) e10) as (S1 & L1).
  destruct (sampled_layer PiecewisePolynomial n H m g' (eps / 6) ltac:(now left) ltac:(lia) ltac:(auto) ltac:(lia) Hm ltac:(auto) ltac:(lra)) as (S2 & L2).
  exists (S (S1 + S2)). intros g K si sh so h0 Wf Hsi Hsh Hso.
  destruct (L1 si ltac:(lia) ltac:(lia)) as (l1 & H1 & F1 & V1). destruct (L2 so ltac:(lia) ltac:(lia)) as (l2 & H2 & F2 & V2).
  destruct (identity_layer n H sh Hn ltac:(lia) Hsh) as (lh & H3 & F3 & V3).
  destruct (load_mlp g "continuous" n d m K H si sh so h0 l1 (repeat lh K) l2 PiecewisePolynomial Wf) as (net & h1 & h & E & Rt & Q); auto.
  { apply repeat_length. }
  { apply Forall_forall. intros l Hl. apply repeat_spec in Hl. subst l. auto. }
  exists net, h1, h. split; auto. split; auto. intros x B Hx Hr.
  destruct (Q x B Hx) as (y & Ey & Sy & Hy). exists y. split; auto. split; auto. intros b o Hb Ho. rewrite Hy by auto.
  set (v := row x b). assert (Hv : forall i, (i < d)%nat -> -1 <= v i <= 1) by (intros i Hi; now apply Hr).
  set (inner := fun c => rsum d (fun i => h' c i (v i))).
  assert (In : forall c, Rabs (inner c) <= 1 / 2).
  { intros c. unfold inner, h'. destruct (Nat.ltb c P); [apply Rg|]. rewrite rsum_zero by auto. rewrite Rabs_R0. lra. }
  assert (Hid : forall c, (c < H)%nat -> Rabs (layer_out l1 v c - inner c) <= e1) by (intros c Hc; now apply V1).
  assert (Rng : forall c, (c < H)%nat -> -1 <= layer_out l1 v c <= 1).
  { intros c Hc. specialize (Hid c Hc). specialize (In c). apply abs_inv in Hid, In. lra. }
  assert (Hk : forall k c, (c < H)%nat -> through (repeat lh k) (layer_out l1 v) c = layer_out l1 v c).
  { intros k. clear - Rng V3. revert Rng. generalize (layer_out l1 v). induction k as [|k IH]; intros u Hu c Hc; cbn [repeat through]; auto.
    rewrite IH; auto. intros j Hj. rewrite V3; auto. }
  cbn [through]. rewrite through_app. cbn [through].
  set (u := through (repeat lh K) (layer_out l1 v)) in *.
  assert (A1 : Rabs (layer_out l2 u o - rsum H (fun c => g' o c (u c))) <= eps / 6).
  { apply V2; auto. intros c Hc. unfold u. rewrite Hk by auto. auto. }
  assert (A2 : Rabs (rsum H (fun c => g' o c (u c)) - rsum H (fun c => g' o c (inner c))) <= eps / 3).
  { rewrite <- rsum_minus. eapply Rle_trans; [apply rsum_abs|]. replace (eps / 3) with (INR H * (eps / 3 / INR H)) by (field; lra).
    rewrite <- rsum_const. apply rsum_le. intros c Hc. apply Rlt_le, Un; auto.
    - unfold u. rewrite Hk by auto. auto.
    - specialize (In c). apply abs_inv in In. lra.
    - unfold u. rewrite Hk by auto. eapply Rle_lt_trans; [now apply Hid|]. lra. }
  assert (A3 : Rabs (rsum H (fun c => g' o c (inner c)) - f o v) < eps / 3).
  { replace (rsum H (fun c => g' o c (inner c))) with (rsum P (fun c => gg o c (rsum d (fun i => hh c i (v i))))); [now apply Ap|].
    replace H with (P + (H - P))%nat by lia. rewrite rsum_add. rewrite (rsum_zero (H - P)), Rplus_0_r.
    - apply rsum_ext. intros c Hc. unfold g', inner, h'. now replace (Nat.ltb c P) with true by (symmetry; apply Nat.ltb_lt; lia).
    - intros c Hc. unfold g'. now replace (Nat.ltb (P + c) P) with false by (symmetry; apply Nat.ltb_ge; lia). }
  replace (layer_out l2 u o - f o v) with ((layer_out l2 u o - rsum H (fun c => g' o c (u c))) +
    ((rsum H (fun c => g' o c (u c)) - rsum H (fun c => g' o c (inner c))) + (rsum H (fun c => g' o c (inner c)) - f o v))) by ring.
  eapply Rle_lt_trans; [apply Rabs_triang|]. eapply Rle_lt_trans; [apply Rplus_le_compat_l, Rabs_triang|]. lra.
Qed.
Print Assumptions C88_mlp_universal.

(** The 2-dimensional product [x y], which one layer cannot approximate (C82), is approximated by networks. *)
Example C88_case : exists H0, forall H, (H0 <= H)%nat -> exists s0, forall g, exists net h1 h,
  HighOrderMLP g (layers_only "continuous" 3 2 1 1 H s0 5 s0) [] = Ok (net, h1) /\ retrained h1 h /\
  forall x B, shape x = [B; 2%nat] -> (forall b i, (b < B)%nat -> (i < 2)%nat -> -1 <= at_ x [b; i] <= 1) ->
    exists y, call h net x = Ok y /\ forall b, (b < B)%nat -> Rabs (at_ y [b; 0%nat] - at_ x [b; 0%nat] * at_ x [b; 1%nat]) < 1 / 1000.
Proof.
  destruct (C88_mlp_universal 3 2 1 (fun _ v => v 0%nat * v 1%nat) (1/1000) ltac:(lia) ltac:(lia) ltac:(lia)) as (H0 & P); [|lra|].
  { intros o _. apply ContinuityFacts.cv_mult; apply ContinuityFacts.cv_proj; lia. }
  exists H0. intros H HH. destruct (P H HH) as (s0 & Q). exists s0. intros g.
  destruct (Q g 1%nat s0 5%nat s0 [] ltac:(intros k Hk; cbn in Hk; lia) ltac:(lia) ltac:(lia) ltac:(lia)) as (net & h1 & h & E & Rt & V).
  exists net, h1, h. split; auto. split; auto. intros x B Hx Hr. destruct (V x B Hx Hr) as (y & Ey & _ & Hy). exists y. split; auto.
  intros b Hb. apply (Hy b 0%nat Hb). lia.
Qed.
