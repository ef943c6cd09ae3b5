(** * Properties of the normalisations (C24-C26, and C12 for them). *)
From Coq Require Import Reals ZArith List Lia Lra Psatz.
From Verif Require Import Spec Tensor Normalization Observe SumFacts TensorFacts NormFacts.
Import ListNotations.
Local Open Scope R_scope.

(** ** C24

    What it means for [y] to be the max-abs normalisation of [x], entries being normalised together
    with those of their [region]. *)
Definition max_abs_normalised (region : list nat -> list nat -> Prop) (x : tensor R) (eps : R) (y : tensor R) : Prop :=
  shape y = shape x /\
  forall ix, valid (shape x) ix -> exists M,
    is_largest (region ix) (fun jx => Rabs (at_ x jx)) M /\
    at_ y ix = at_ x ix / (M + eps) /\
    (0 < eps -> -1 < at_ y ix < 1 /\ (0 < at_ y ix <-> 0 < at_ x ix) /\ (at_ y ix < 0 <-> at_ x ix < 0) /\
       is_largest (region ix) (fun jx => Rabs (at_ y jx)) (M / (M + eps))) /\
    (eps = 0 -> 0 < M -> is_largest (region ix) (fun jx => Rabs (at_ y jx)) 1).

Lemma max_abs_finish (region : list nat -> list nat -> Prop) x eps y :
  (forall ix, valid (shape x) ix -> region ix ix) ->
  (forall ix jx, region ix jx -> valid (shape x) jx) ->
  (forall ix jx kx, region ix jx -> region ix kx -> region jx kx) ->
  (forall ix jx kx, region ix jx -> region jx kx -> region ix kx) ->
  shape y = shape x ->
  (forall ix, valid (shape x) ix -> exists M,
    is_largest (region ix) (fun jx => Rabs (at_ x jx)) M /\ at_ y ix = at_ x ix / (M + eps)) ->
  max_abs_normalised region x eps y.
Proof.
  intros Rr Rv Re Rt Hs H. split; auto. intros ix Hv. destruct (H ix Hv) as (M & HM & E).
  exists M. split; auto. split; auto.
  assert (HMp : 0 <= M) by (destruct HM as [(a & _ & <-) _]; apply Rabs_pos).
  assert (Hy : forall jx, region ix jx -> at_ y jx = at_ x jx / (M + eps)).
  { intros jx Hj. destruct (H jx (Rv ix jx Hj)) as (M' & HM' & E'). rewrite E'.
    replace M' with M; auto. apply (largest_unique (region ix) (fun jx => Rabs (at_ x jx))); auto.
    destruct HM' as [(a & Ha & Ea) L]. split; [exists a; split; eauto|]. intros k Hk. apply L. eauto. }
  assert (Hl : 0 < M + eps -> is_largest (region ix) (fun jx => Rabs (at_ y jx)) (M / (M + eps))).
  { intros Hp. assert (Hi := Rinv_0_lt_compat _ Hp). destruct HM as [(a & Ha & Ea) L]. split.
    - exists a. split; auto. rewrite Hy by auto. unfold Rdiv. rewrite Rabs_mult, (Rabs_right (/ _)) by lra. now rewrite Ea.
    - intros k Hk. rewrite Hy by auto. unfold Rdiv. rewrite Rabs_mult, (Rabs_right (/ _)) by lra.
      apply Rmult_le_compat_r; [lra|]. now apply L. }
  split.
  - intros He. assert (Hp : 0 < M + eps) by lra. assert (Hi := Rinv_0_lt_compat _ Hp).
    split; [rewrite E; apply abs_norm_bounds; auto; apply (proj2 HM); auto|].
    split; [|split]; auto; rewrite E; unfold Rdiv; split; intros K; nra.
  - intros -> HM0. assert (Hp : 0 < M + 0) by lra. specialize (Hl Hp). rewrite Rplus_0_r in Hl.
    replace 1 with (M / M) by (field; lra). exact Hl.
Qed.

Lemma max_center_same (region : list nat -> list nat -> Prop) x y eps :
  (forall ix jx, region ix jx -> valid (shape x) jx) ->
  (forall ix jx kx, region ix jx -> region ix kx -> region jx kx) ->
  (forall ix jx kx, region ix jx -> region jx kx -> region ix kx) ->
  (forall ix, valid (shape x) ix -> exists M m,
    is_largest (region ix) (at_ x) M /\ is_smallest (region ix) (at_ x) m /\
    at_ y ix = (at_ x ix - (M + m) / 2) / ((M - m) / 2 + eps)) ->
  forall ix M m jx, is_largest (region ix) (at_ x) M -> is_smallest (region ix) (at_ x) m -> region ix jx ->
    at_ y jx = (at_ x jx - (M + m) / 2) / ((M - m) / 2 + eps).
Proof.
  intros Rv Re Rt H ix M m jx HM Hm Hj. destruct (H jx (Rv ix jx Hj)) as (M' & m' & HM' & Hm' & E'). rewrite E'.
  replace M' with M; [replace m' with m; auto|].
  - apply (smallest_unique (region ix) (at_ x)); auto.
    destruct Hm' as [(a & Ha & Ea) L]. split; [exists a; split; eauto|]. intros k Hk. apply L. eauto.
  - apply (largest_unique (region ix) (at_ x)); auto.
    destruct HM' as [(a & Ha & Ea) L]. split; [exists a; split; eauto|]. intros k Hk. apply L. eauto.
Qed.

Lemma slice_valid s d ix jx : in_slice s d ix jx -> valid s jx.
Proof. now intros []. Qed.
Lemma slice_refl s d ix : valid s ix -> in_slice s d ix ix.
Proof. split; auto. apply same_slice_refl. Qed.
Lemma slice_eucl s d ix jx kx : in_slice s d ix jx -> in_slice s d ix kx -> in_slice s d jx kx.
Proof. intros [_ A] [V B]. split; auto. eapply same_slice_trans; [apply same_slice_sym|]; eauto. Qed.
Lemma slice_trans s d ix jx kx : in_slice s d ix jx -> in_slice s d jx kx -> in_slice s d ix kx.
Proof. intros [_ A] [V B]. split; auto. eapply same_slice_trans; eauto. Qed.

Lemma nth_pred_last (s : list nat) : nth (length s - 1) s 0%nat = last s 0%nat.
Proof.
  induction s as [|a s IH]; [reflexivity|]. destruct s as [|b s]; [reflexivity|].
  cbn [length last] in *. rewrite Nat.sub_succ, Nat.sub_0_r in *. exact IH.
Qed.

(** Sample of [ix]. *)
Definition sample_of (s : list nat) (ix : list nat) : list nat -> Prop := in_sample s (hd 0%nat ix).
Lemma sample_valid s ix jx : sample_of s ix jx -> valid s jx.
Proof. now intros []. Qed.
Lemma sample_refl s ix : valid s ix -> sample_of s ix ix.
Proof. split; auto. Qed.
Lemma sample_eucl s ix jx kx : sample_of s ix jx -> sample_of s ix kx -> sample_of s jx kx.
Proof. unfold sample_of, in_sample. intros [_ A] [V B]. split; auto. congruence. Qed.
Lemma sample_trans s ix jx kx : sample_of s ix jx -> sample_of s jx kx -> sample_of s ix kx.
Proof. unfold sample_of, in_sample. intros [_ A] [V B]. split; auto. congruence. Qed.

(** [dim] counts from the end when negative, as in python. *)
Definition dim_of (x : tensor R) (dim : Z) : nat :=
  Z.to_nat (if Z.ltb dim 0 then Z.of_nat (length (shape x)) + dim else dim).
Lemma dim_of_wrap x dim : wrap (length (shape x)) dim = dim_of x dim.
Proof. unfold wrap, dim_of. destruct (Z.ltb dim 0); f_equal; lia. Qed.
Definition dim_in_range (x : tensor R) (dim : Z) : Prop := (- Z.of_nat (length (shape x)) <= dim < Z.of_nat (length (shape x)))%Z.
Lemma dim_in_range_ok x dim : dim_in_range x dim -> index_ok (length (shape x)) dim = true.
Proof. intros [A B]. unfold index_ok. apply Bool.andb_true_iff. split; [apply Z.leb_le|apply Z.ltb_lt]; lia. Qed.

Theorem C24_max_abs : forall x eps dim, dim_in_range x dim -> nth (dim_of x dim) (shape x) 0%nat <> 0%nat ->
  exists y, max_abs_normalization x eps dim = Ok y /\ max_abs_normalised (in_slice (shape x) (dim_of x dim)) x eps y.
Proof.
  intros x eps dim Hd Hn. rewrite <- dim_of_wrap in *.
  destruct (max_abs_spec x eps dim (dim_in_range_ok x dim Hd) Hn) as (y & E & Hs & V).
  exists y. split; auto. apply max_abs_finish; auto;
    [apply slice_refl|apply slice_valid|apply slice_eucl|apply slice_trans].
Qed.
Print Assumptions C24_max_abs.

Theorem C24_max_abs_last : forall x eps, shape x <> [] -> last (shape x) 0%nat <> 0%nat ->
  exists y, max_abs_normalization_last x eps = Ok y /\ max_abs_normalised (in_slice (shape x) (length (shape x) - 1)) x eps y.
Proof.
  intros x eps Hx Hl. unfold max_abs_normalization_last.
  assert (L : (1 <= length (shape x))%nat) by (destruct (shape x); [congruence|cbn; lia]).
  assert (W : dim_of x (Z.of_nat (length (shape x)) - 1) = (length (shape x) - 1)%nat)
    by (rewrite <- dim_of_wrap; now apply wrap_last).
  rewrite <- W. apply C24_max_abs; [red; lia|]. rewrite W, nth_pred_last; auto.
Qed.
Print Assumptions C24_max_abs_last.

Theorem C24_max_abs_nd : forall x eps, shape x <> [] -> numel x <> 0%nat ->
  exists y, max_abs_normalization_nd x eps = Ok y /\ max_abs_normalised (sample_of (shape x)) x eps y.
Proof.
  intros x eps Hx Hl. destruct (shape x) as [|d0 s] eqn:Es; [congruence|]. clear Hx.
  unfold numel in Hl. rewrite Es in Hl. cbn [prodn] in Hl.
  destruct (max_abs_nd_spec x d0 s Es ltac:(lia) ltac:(lia) eps) as (y & E & Hs & V).
  exists y. split; auto. rewrite <- Es in *. apply max_abs_finish; auto;
    [apply sample_refl|apply sample_valid|apply sample_eucl|apply sample_trans|].
  intros ix Hv. destruct ix as [|b ix]; [rewrite Es in Hv; contradiction|]. apply (V b ix Hv).
Qed.
Print Assumptions C24_max_abs_nd.

(** A dimension the tensor does not have, and an empty slice, are rejected. *)
Theorem C24_bad_dim_rejected : forall x eps dim, ~ dim_in_range x dim \/ nth (dim_of x dim) (shape x) 0%nat = 0%nat ->
  max_abs_normalization x eps dim = Err IndexError /\ max_center_normalization x eps dim = Err IndexError.
Proof.
  intros x eps dim H. unfold max_abs_normalization, max_center_normalization, max_abs, reduce_keep. cbn [tmap shape].
  rewrite <- dim_of_wrap in H.
  destruct (index_ok (length (shape x)) dim) eqn:Ei; [|now split].
  destruct H as [H|H]; [|rewrite H; now split].
  exfalso. apply H. unfold index_ok in Ei. apply Bool.andb_true_iff in Ei. rewrite Z.leb_le, Z.ltb_lt in Ei. red. lia.
Qed.
Print Assumptions C24_bad_dim_rejected.

(** A 2 x 3 matrix for the examples: rows (1, -3, 2) and (0, 0, 5). *)
Definition demo_mat : tensor R :=
  mkT [2; 3]%nat (fun ix => match ix with
    | [0; 0]%nat => 1 | [0; 1]%nat => -3 | [0; 2]%nat => 2 | [1; 2]%nat => 5 | _ => 0 end).
Ltac decide_max :=
  unfold Rabs; repeat match goal with |- context [Rcase_abs ?a] => destruct (Rcase_abs a); try (exfalso; lra) end;
  repeat match goal with |- context [Rle_dec ?a ?b] =>
    lazymatch a with context [Rle_dec _ _] => fail | _ => lazymatch b with context [Rle_dec _ _] => fail | _ => destruct (Rle_dec a b); try (exfalso; lra) end end end; try lra; try field.
Example C24_example : exists y, max_abs_normalization demo_mat 1 (-1) = Ok y /\ at_ y [0; 1]%nat = -3/4 /\ at_ y [1; 2]%nat = 5/6.
Proof.
  eexists. split; [reflexivity|]. cbn. change (Pos.to_nat 1) with 1%nat. cbn. unfold Rmax. split; decide_max.
Qed.

(** ** C25 *)
Definition max_center_normalised (region : list nat -> list nat -> Prop) (x : tensor R) (eps : R) (y : tensor R) : Prop :=
  shape y = shape x /\
  forall ix, valid (shape x) ix -> exists M m,
    is_largest (region ix) (at_ x) M /\ is_smallest (region ix) (at_ x) m /\
    at_ y ix = (at_ x ix - (M + m) / 2) / ((M - m) / 2 + eps) /\
    (0 < eps -> -1 < at_ y ix < 1 /\
       let half := (M - m) / 2 in
       is_largest (region ix) (at_ y) (half / (half + eps)) /\ is_smallest (region ix) (at_ y) (- (half / (half + eps)))).

Lemma max_center_finish (region : list nat -> list nat -> Prop) x eps y :
  (forall ix, valid (shape x) ix -> region ix ix) ->
  (forall ix jx, region ix jx -> valid (shape x) jx) ->
  (forall ix jx kx, region ix jx -> region ix kx -> region jx kx) ->
  (forall ix jx kx, region ix jx -> region jx kx -> region ix kx) ->
  shape y = shape x ->
  (forall ix, valid (shape x) ix -> exists M m,
    is_largest (region ix) (at_ x) M /\ is_smallest (region ix) (at_ x) m /\
    at_ y ix = (at_ x ix - (M + m) / 2) / ((M - m) / 2 + eps)) ->
  max_center_normalised region x eps y.
Proof.
  intros Rr Rv Re Rt Hs H. split; auto. intros ix Hv. destruct (H ix Hv) as (M & m & HM & Hm & E).
  exists M, m. split; auto. split; auto. split; auto. intros He.
  assert (Hy := fun jx => max_center_same region x y eps Rv Re Rt H ix M m jx HM Hm).
  assert (Hix := Rr ix Hv). assert (L1 := proj2 HM ix Hix). assert (L2 := proj2 Hm ix Hix).
  assert (Hp : 0 < (M - m) / 2 + eps) by lra. assert (Hi := Rinv_0_lt_compat _ Hp).
  split; [rewrite E; apply center_norm_bounds; auto|]. cbn zeta. split; split.
  - destruct HM as [(a & Ha & Ea) L]. exists a. split; auto. rewrite Hy, Ea by auto. f_equal. field.
  - intros k Hk. rewrite Hy by auto. unfold Rdiv at 1 4. apply Rmult_le_compat_r; [lra|].
    apply (proj2 HM) in Hk. lra.
  - destruct Hm as [(a & Ha & Ea) L]. exists a. split; auto. rewrite Hy, Ea by auto.
    field. lra.
  - intros k Hk. rewrite Hy by auto. apply (proj2 Hm) in Hk.
    replace (- ((M - m) / 2 / ((M - m) / 2 + eps))) with ((- ((M - m) / 2)) * / ((M - m) / 2 + eps)) by (field; lra).
    apply Rmult_le_compat_r; lra.
Qed.

Theorem C25_max_center : forall x eps dim, dim_in_range x dim -> nth (dim_of x dim) (shape x) 0%nat <> 0%nat ->
  exists y, max_center_normalization x eps dim = Ok y /\ max_center_normalised (in_slice (shape x) (dim_of x dim)) x eps y.
Proof.
  intros x eps dim Hd Hn. rewrite <- dim_of_wrap in *.
  destruct (max_center_spec x eps dim (dim_in_range_ok x dim Hd) Hn) as (y & E & Hs & V).
  exists y. split; auto. apply max_center_finish; auto;
    [apply slice_refl|apply slice_valid|apply slice_eucl|apply slice_trans].
Qed.
Print Assumptions C25_max_center.

Theorem C25_max_center_last : forall x eps, shape x <> [] -> last (shape x) 0%nat <> 0%nat ->
  exists y, max_center_normalization_last x eps = Ok y /\ max_center_normalised (in_slice (shape x) (length (shape x) - 1)) x eps y.
Proof.
  intros x eps Hx Hl. unfold max_center_normalization_last.
  assert (L : (1 <= length (shape x))%nat) by (destruct (shape x); [congruence|cbn; lia]).
  assert (W : dim_of x (Z.of_nat (length (shape x)) - 1) = (length (shape x) - 1)%nat)
    by (rewrite <- dim_of_wrap; now apply wrap_last).
  rewrite <- W. apply C25_max_center; [red; lia|]. rewrite W, nth_pred_last; auto.
Qed.
Print Assumptions C25_max_center_last.

Theorem C25_max_center_nd : forall x eps, shape x <> [] -> numel x <> 0%nat ->
  exists y, max_center_normalization_nd x eps = Ok y /\ max_center_normalised (sample_of (shape x)) x eps y.
Proof.
  intros x eps Hx Hl. destruct (shape x) as [|d0 s] eqn:Es; [congruence|]. clear Hx.
  unfold numel in Hl. rewrite Es in Hl. cbn [prodn] in Hl.
  destruct (max_center_nd_spec x d0 s Es ltac:(lia) ltac:(lia) eps) as (y & E & Hs & V).
  exists y. split; auto. rewrite <- Es in *. apply max_center_finish; auto;
    [apply sample_refl|apply sample_valid|apply sample_eucl|apply sample_trans|].
  intros ix Hv. destruct ix as [|b ix]; [rewrite Es in Hv; contradiction|]. apply (V b ix Hv).
Qed.
Print Assumptions C25_max_center_nd.

(** Adding a constant to the slice of an entry leaves its normalised value unchanged. *)
Lemma center_shift (region : list nat -> list nat -> Prop) x x' eps y y' c ix :
  shape x' = shape x -> valid (shape x) ix -> region ix ix ->
  (forall jx, region ix jx -> at_ x' jx = at_ x jx + c) ->
  max_center_normalised region x eps y -> max_center_normalised region x' eps y' -> at_ y' ix = at_ y ix.
Proof.
  intros Hs Hv Hr Hc [_ H] [_ H'].
  destruct (H ix Hv) as (M & m & HM & Hm & E & _). rewrite <- Hs in Hv. destruct (H' ix Hv) as (M' & m' & HM' & Hm' & E' & _).
  assert (M' = M + c).
  { apply (largest_unique (region ix) (at_ x')); auto. destruct HM as [(a & Ha & Ea) L].
    split; [exists a; split; auto; rewrite Hc by auto; lra|]. intros k Hk. rewrite Hc by auto. specialize (L k Hk). lra. }
  assert (m' = m + c).
  { apply (smallest_unique (region ix) (at_ x')); auto. destruct Hm as [(a & Ha & Ea) L].
    split; [exists a; split; auto; rewrite Hc by auto; lra|]. intros k Hk. rewrite Hc by auto. specialize (L k Hk). lra. }
  rewrite E, E', Hc by auto. subst. f_equal; [lra|]. f_equal. f_equal. lra.
Qed.

Theorem C25_shift_invariant : forall x x' eps dim y y' c ix,
  shape x' = shape x -> dim_in_range x dim -> valid (shape x) ix ->
  (forall jx, in_slice (shape x) (dim_of x dim) ix jx -> at_ x' jx = at_ x jx + c) ->
  max_center_normalization x eps dim = Ok y -> max_center_normalization x' eps dim = Ok y' ->
  at_ y' ix = at_ y ix.
Proof.
  intros x x' eps dim y y' c ix Hs Hd Hv Hc E E'.
  assert (Hn : nth (dim_of x dim) (shape x) 0%nat <> 0%nat).
  { intros K. destruct (C24_bad_dim_rejected x eps dim (or_intror K)) as [_ Q]. congruence. }
  destruct (C25_max_center x eps dim Hd Hn) as (z & Ez & Hz).
  assert (D : dim_of x' dim = dim_of x dim) by (unfold dim_of; now rewrite Hs).
  destruct (C25_max_center x' eps dim) as (z' & Ez' & Hz'); [red; rewrite Hs; exact Hd|now rewrite D, Hs|].
  rewrite E in Ez; injection Ez as <-. rewrite E' in Ez'; injection Ez' as <-.
  rewrite D, Hs in Hz'. eapply center_shift; eauto. now apply slice_refl.
Qed.
Print Assumptions C25_shift_invariant.

Theorem C25_shift_invariant_nd : forall x x' eps y y' c ix,
  shape x' = shape x -> valid (shape x) ix -> ix <> [] ->
  (forall jx, sample_of (shape x) ix jx -> at_ x' jx = at_ x jx + c) ->
  max_center_normalization_nd x eps = Ok y -> max_center_normalization_nd x' eps = Ok y' ->
  at_ y' ix = at_ y ix.
Proof.
  intros x x' eps y y' c ix Hs Hv Hix Hc E E'.
  assert (Hn : shape x <> []) by (intros K; rewrite K in Hv; destruct ix; auto; contradiction).
  assert (Hn' : numel x <> 0%nat) by (pose proof (ravel_lt _ _ Hv); unfold numel; lia).
  destruct (C25_max_center_nd x eps Hn Hn') as (z & Ez & Hz).
  destruct (C25_max_center_nd x' eps) as (z' & Ez' & Hz'); [congruence|unfold numel in *; congruence|].
  rewrite E in Ez; injection Ez as <-. rewrite E' in Ez'; injection Ez' as <-.
  rewrite Hs in Hz'. eapply center_shift; eauto. now apply sample_refl.
Qed.
Print Assumptions C25_shift_invariant_nd.

Example C25_example : exists y, max_center_normalization demo_mat 1 1 = Ok y /\ at_ y [0; 1]%nat = -5/7 /\ at_ y [0; 2]%nat = 5/7.
Proof.
  eexists. split; [reflexivity|]. cbn. change (Pos.to_nat 1) with 1%nat. cbn. unfold Rmax, Rmin. split; decide_max.
Qed.

(** ** C26 *)
Theorem C26_l2_norm : forall x eps B I, 0 < eps -> shape x = [B; I] ->
  exists y, l2_normalization x eps = Ok y /\ shape y = [B; I] /\
  forall b, (b < B)%nat ->
    let N := sqrt (rsum I (fun i => at_ x [b; i] * at_ x [b; i])) in
    0 < / (N + eps) /\ (forall i, (i < I)%nat -> at_ y [b; i] = / (N + eps) * at_ x [b; i]) /\
    sqrt (rsum I (fun i => at_ y [b; i] * at_ y [b; i])) = N / (N + eps) /\ N / (N + eps) < 1.
Proof.
  intros x eps B I He Hx. unfold l2_normalization, reduce_keep. rewrite Hx. cbn [length index_ok wrap nth andb rbind].
  change (index_ok 2 1) with true. cbn [rbind]. eexists; split; [reflexivity|]. split; [exact Hx|].
  intros b Hb. set (N := sqrt (rsum I (fun i => at_ x [b; i] * at_ x [b; i]))).
  assert (HN : 0 <= N) by apply sqrt_pos. assert (Hp : 0 < N + eps) by lra. assert (Hi := Rinv_0_lt_compat _ Hp).
  assert (V : forall i, at_ (with_reduced (fun a m : R => a / (m + eps)) x
     (mkT [B; 1%nat] (fun ix => sqrt (rsum I (fun k => at_ x (set_nth 1 k ix) * at_ x (set_nth 1 k ix))))) 1) [b; i] = / (N + eps) * at_ x [b; i]).
  { intros i. unfold with_reduced. rewrite Hx. cbn [length at_]. change (wrap 2 1) with 1%nat. cbn [set_nth]. fold N. unfold Rdiv. ring. }
  change (wrap 2 1) with 1%nat. cbn [nth set_nth Nat.eqb]. cbn zeta. fold N. split; [exact Hi|]. split.
  - intros i Hi'. apply V.
  - split.
    + rewrite (rsum_ext I _ (fun i => (/ (N + eps) * / (N + eps)) * (at_ x [b; i] * at_ x [b; i]))) by (intros; rewrite V; ring).
      rewrite rsum_scal. rewrite sqrt_mult_alt by nra. rewrite sqrt_square by lra. fold N. unfold Rdiv. ring.
    + apply Rmult_lt_reg_r with (N + eps); auto. unfold Rdiv. rewrite Rmult_assoc, Rinv_l; lra.
Qed.
Print Assumptions C26_l2_norm.

Example C26_example : exists y, l2_normalization (mkT [1; 2]%nat (fun ix => match ix with [_; 0]%nat => 3 | _ => 4 end)) 1 = Ok y
  /\ at_ y [0; 0]%nat = 1/2 /\ at_ y [0; 1]%nat = 2/3.
Proof.
  eexists. split; [reflexivity|]. cbn. change (Pos.to_nat 1) with 1%nat. cbn. replace (0 + 3 * 3 + 4 * 4) with (5 * 5) by lra. rewrite sqrt_square by lra. lra.
Qed.

(** ** C12 for the normalisations: an entry depends only on the entries normalised with it, hence (for
    a dimension other than the batch, and for the whole-sample variants) only on its own sample. *)
Theorem C12_samples_independent_max_abs : forall x x' eps dim y y' b ix,
  shape x' = shape x -> dim_in_range x dim -> dim_of x dim <> 0%nat -> in_sample (shape x) b ix ->
  (forall jx, in_sample (shape x) b jx -> at_ x' jx = at_ x jx) ->
  (max_abs_normalization x eps dim = Ok y -> max_abs_normalization x' eps dim = Ok y' -> at_ y' ix = at_ y ix) /\
  (max_center_normalization x eps dim = Ok y -> max_center_normalization x' eps dim = Ok y' -> at_ y' ix = at_ y ix).
Proof.
  intros x x' eps dim y y' b ix Hs Hd Hd0 [Hv Hb] Hc.
  assert (Hc' : forall jx, in_slice (shape x) (dim_of x dim) ix jx -> at_ x' jx = at_ x jx).
  { intros jx [Hj [_ Q]]. apply Hc. split; auto. specialize (Q 0%nat ltac:(lia)). destruct ix, jx; cbn in *; congruence. }
  split; intros E E'.
  - assert (Hn : nth (dim_of x dim) (shape x) 0%nat <> 0%nat).
    { intros K. destruct (C24_bad_dim_rejected x eps dim (or_intror K)) as [Q _]. congruence. }
    destruct (C24_max_abs x eps dim Hd Hn) as (z & Ez & _ & Hz).
    assert (D : dim_of x' dim = dim_of x dim) by (unfold dim_of; now rewrite Hs).
    destruct (C24_max_abs x' eps dim) as (z' & Ez' & _ & Hz'); [red; rewrite Hs; exact Hd|now rewrite D, Hs|].
    rewrite E in Ez; injection Ez as <-. rewrite E' in Ez'; injection Ez' as <-.
    rewrite D, Hs in Hz'. destruct (Hz ix Hv) as (M & HM & V & _). destruct (Hz' ix Hv) as (M' & HM' & V' & _).
    rewrite V, V'. rewrite Hc' by now apply slice_refl. do 2 f_equal.
    apply (largest_unique (in_slice (shape x) (dim_of x dim) ix) (fun jx => Rabs (at_ x' jx))); auto.
    destruct HM as [(a & Ha & Ea) L]. split; [exists a; split; auto; now rewrite Hc'|]. intros k Hk. rewrite Hc' by auto. now apply L.
  - apply (C25_shift_invariant x x' eps dim y y' 0 ix); auto. intros jx Hj. rewrite Hc' by auto. lra.
Qed.
Print Assumptions C12_samples_independent_max_abs.

Theorem C12_samples_independent_nd : forall x x' eps y y' b ix,
  shape x' = shape x -> ix <> [] -> in_sample (shape x) b ix ->
  (forall jx, in_sample (shape x) b jx -> at_ x' jx = at_ x jx) ->
  (max_abs_normalization_nd x eps = Ok y -> max_abs_normalization_nd x' eps = Ok y' -> at_ y' ix = at_ y ix) /\
  (max_center_normalization_nd x eps = Ok y -> max_center_normalization_nd x' eps = Ok y' -> at_ y' ix = at_ y ix).
Proof.
  intros x x' eps y y' b ix Hs Hix [Hv Hb] Hc. subst b.
  assert (Hn : shape x <> []) by (intros K; rewrite K in Hv; destruct ix; auto; contradiction).
  assert (Hn' : numel x <> 0%nat) by (pose proof (ravel_lt _ _ Hv); unfold numel; lia).
  split; intros E E'.
  - destruct (C24_max_abs_nd x eps Hn Hn') as (z & Ez & _ & Hz).
    destruct (C24_max_abs_nd x' eps) as (z' & Ez' & _ & Hz'); [congruence|unfold numel in *; congruence|].
    rewrite E in Ez; injection Ez as <-. rewrite E' in Ez'; injection Ez' as <-.
    rewrite Hs in Hz'. destruct (Hz ix Hv) as (M & HM & V & _). destruct (Hz' ix Hv) as (M' & HM' & V' & _).
    rewrite V, V'. rewrite Hc by now apply sample_refl. do 2 f_equal.
    apply (largest_unique (sample_of (shape x) ix) (fun jx => Rabs (at_ x' jx))); auto.
    destruct HM as [(a & Ha & Ea) L]. split; [exists a; split; auto; now rewrite Hc|]. intros k Hk. rewrite Hc by auto. now apply L.
  - apply (C25_shift_invariant_nd x x' eps y y' 0 ix); auto. intros jx Hj. rewrite Hc by auto. lra.
Qed.
Print Assumptions C12_samples_independent_nd.

(** Along the batch dimension the samples do influence each other. *)
Theorem C12_max_abs_dim0_mixes_samples : exists x x' y y', shape x = [2; 1]%nat /\ shape x' = [2; 1]%nat /\
  at_ x [0; 0]%nat = at_ x' [0; 0]%nat /\
  max_abs_normalization x 1 0 = Ok y /\ max_abs_normalization x' 1 0 = Ok y' /\ at_ y [0; 0]%nat <> at_ y' [0; 0]%nat.
Proof.
  exists (mkT [2; 1]%nat (fun _ => 1)), (mkT [2; 1]%nat (fun ix => if Nat.eqb (hd 0%nat ix) 0 then 1 else 2)).
  eexists. eexists. do 3 (split; [reflexivity|]). split; [reflexivity|]. split; [reflexivity|].
  cbn. unfold Rmax. decide_max.
Qed.
Print Assumptions C12_max_abs_dim0_mixes_samples.
