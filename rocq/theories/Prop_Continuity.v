(** * C78: the normalisations and activations of the package are continuous in each sample. *)
From Coq Require Import Reals ZArith String List Bool Lia Lra.
From Verif Require Import Spec Tensor SumFacts TensorFacts Normalization NormFacts Layers Networks Observe ObserveNet ContinuityFacts.
Import ListNotations.
Local Open Scope R_scope.

(** An elementwise function that is continuous. *)
Theorem C78_elementwise_continuous : forall W f, continuity f -> rowwise_continuous W W (fun x => Ok (tmap f x)).
Proof.
  intros W f C. exists (fun v o => f (v o)). split.
  - intros o Ho. apply cv_continuity; auto. now apply cv_proj.
  - intros x B Sx. exists (tmap f x). split; auto.
Qed.
Print Assumptions C78_elementwise_continuous.

Lemma rmax_nonneg n f : (forall k, (k < n)%nat -> 0 <= f k) -> 0 <= rmax n f.
Proof. intros H. destruct n as [|n]; [cbn; lra|]. destruct (rmax_att (S n) f ltac:(lia)) as (k & Hk & ->). auto. Qed.
Lemma rmin_le_rmax n f : rmin n f <= rmax n f.
Proof. destruct n as [|n]; [cbn; lra|]. apply (Rle_trans _ (f 0%nat)); [apply rmin_le|apply rmax_ge]; lia. Qed.

(** The normalisations over the last dimension of a batch of rows, for a positive eps. *)
Theorem C78_normalizations_continuous : forall W eps, (1 <= W)%nat -> 0 < eps ->
  rowwise_continuous W W (fun x => max_abs_normalization x eps 1) /\
  rowwise_continuous W W (fun x => max_abs_normalization_last x eps) /\
  rowwise_continuous W W (fun x => max_center_normalization x eps 1) /\
  rowwise_continuous W W (fun x => max_center_normalization_last x eps) /\
  rowwise_continuous W W (fun x => l2_normalization x eps).
Proof.
  intros W eps HW He.
  assert (Ew : wrap 2 1 = 1%nat) by reflexivity. assert (Ei : index_ok 2 1 = true) by reflexivity.
  assert (W0 : (W =? 0)%nat = false) by (apply Nat.eqb_neq; lia).
  assert (A : rowwise_continuous W W (fun x => max_abs_normalization x eps 1)).
  { exists (fun v o => v o / (rmax W (fun k => Rabs (v k)) + eps)). split.
    - intros o Ho. apply cv_div; [|now apply cv_proj|apply cv_plus; [apply cv_rmax; intros; apply cv_abs, cv_proj; auto|apply cv_const]].
      intros v. pose proof (rmax_nonneg W (fun k => Rabs (v k)) (fun k _ => Rabs_pos _)). lra.
    - intros x B Sx. unfold max_abs_normalization, max_abs, reduce_keep. cbn [tmap shape]. rewrite Sx. cbn [length]. rewrite Ei, Ew. cbn [nth andb]. rewrite W0. cbn [rbind].
      eexists. split; [reflexivity|]. split; [exact Sx|]. intros b o Hb Ho. unfold with_reduced. cbn [shape at_]. rewrite Sx. cbn [length]. rewrite Ew. reflexivity. }
  assert (M : rowwise_continuous W W (fun x => max_center_normalization x eps 1)).
  { exists (fun v o => (v o - 1/2 * (rmax W v + rmin W v)) / (rmax W v - 1/2 * (rmax W v + rmin W v) + eps)).
    assert (Cx : continuous_vec W (fun v => rmax W v)) by (apply (cv_rmax W W (fun k v => v k)); intros; now apply cv_proj).
    assert (Cn : continuous_vec W (fun v => rmin W v)) by (apply (cv_rmin W W (fun k v => v k)); intros; now apply cv_proj).
    assert (Cm : continuous_vec W (fun v => 1/2 * (rmax W v + rmin W v))) by (apply cv_mult; [apply cv_const|now apply cv_plus]). split.
    - intros o Ho. apply cv_div; [|apply cv_minus; auto; now apply cv_proj|apply cv_plus; [now apply cv_minus|apply cv_const]].
      intros v. pose proof (rmin_le_rmax W v). lra.
    - intros x B Sx. unfold max_center_normalization, reduce_keep. rewrite Sx. cbn [length]. rewrite Ei, Ew. cbn [nth andb]. rewrite W0. cbn [rbind].
      eexists. split; [reflexivity|]. split; [exact Sx|]. intros b o Hb Ho. unfold with_reduced. cbn [shape at_]. rewrite Sx. cbn [length]. rewrite Ew. reflexivity. }
  assert (L : rowwise_continuous W W (fun x => l2_normalization x eps)).
  { exists (fun v o => v o / (sqrt (rsum W (fun k => v k * v k)) + eps)). split.
    - intros o Ho. apply cv_div; [|now apply cv_proj|apply cv_plus; [apply cv_sqrt, cv_rsum; intros; apply cv_mult; now apply cv_proj|apply cv_const]].
      intros v. pose proof (sqrt_pos (rsum W (fun k => v k * v k))). lra.
    - intros x B Sx. unfold l2_normalization, reduce_keep. rewrite Sx. cbn [length]. rewrite Ei, Ew. cbn [nth andb rbind].
      eexists. split; [reflexivity|]. split; [exact Sx|]. intros b o Hb Ho. unfold with_reduced. cbn [shape at_]. rewrite Sx. cbn [length]. rewrite Ew. reflexivity. }
  assert (Last : forall f : tensor R -> R -> Z -> res (tensor R), rowwise_continuous W W (fun x => f x eps 1%Z) ->
      rowwise_continuous W W (fun x => f x eps (Z.of_nat (length (shape x)) - 1)%Z)).
  { intros f (F & C & V). exists F. split; auto. intros x B Sx. rewrite Sx. now apply V. }
  repeat split; auto; [apply (Last max_abs_normalization)|apply (Last max_center_normalization)]; auto.
Qed.
Print Assumptions C78_normalizations_continuous.


(** [torch.nn.ReLU]. *)
Theorem C78_relu_continuous : forall W, rowwise_continuous W W (fun x => Ok (relu x)).
Proof.
  intros W. exists (fun v o => Rmax 0 (v o)). split.
  - intros o Ho. apply cv_max; [apply cv_const|now apply cv_proj].
  - intros x B Sx. exists (relu x). split; auto.
Qed.
Print Assumptions C78_relu_continuous.

Example C78_modules_case : rowwise_continuous 4 4 (fun x => max_abs_normalization_last x (1/1000000)) /\
  rowwise_continuous 4 4 (fun x => Ok (tmap (fun t => 2 * t) x)).
Proof.
  split; [apply C78_normalizations_continuous; [lia|lra]|]. apply C78_elementwise_continuous. reg.
Qed.
