(** * Facts about the normalisations. *)
From Coq Require Import Reals ZArith List Lia Lra Psatz.
From Verif Require Import Spec Tensor Normalization Observe SumFacts TensorFacts.
Import ListNotations.
Local Open Scope R_scope.

Lemma rmax_ge n f k : (k < n)%nat -> f k <= rmax n f.
Proof.
  induction n; intros H; [lia|]. destruct n; [assert (k = 0%nat) by lia; subst; cbn; lra|].
  change (rmax (S (S n)) f) with (Rmax (rmax (S n) f) (f (S n))).
  destruct (Nat.eq_dec k (S n)) as [->|]; [apply Rmax_r|].
  eapply Rle_trans; [apply IHn; lia|apply Rmax_l].
Qed.
Lemma rmax_att n f : (1 <= n)%nat -> exists k, (k < n)%nat /\ rmax n f = f k.
Proof.
  induction n; intros H; [lia|]. destruct n; [exists 0%nat; split; [lia|reflexivity]|].
  change (rmax (S (S n)) f) with (Rmax (rmax (S n) f) (f (S n))).
  destruct (IHn ltac:(lia)) as (k & Hk & E).
  destruct (Rle_dec (rmax (S n) f) (f (S n))).
  - exists (S n). split; [lia|]. now apply Rmax_right.
  - exists k. split; [lia|]. rewrite Rmax_left by lra. exact E.
Qed.
Lemma rmin_le n f k : (k < n)%nat -> rmin n f <= f k.
Proof.
  induction n; intros H; [lia|]. destruct n; [assert (k = 0%nat) by lia; subst; cbn; lra|].
  change (rmin (S (S n)) f) with (Rmin (rmin (S n) f) (f (S n))).
  destruct (Nat.eq_dec k (S n)) as [->|]; [apply Rmin_r|].
  eapply Rle_trans; [apply Rmin_l|apply IHn; lia].
Qed.
Lemma rmin_att n f : (1 <= n)%nat -> exists k, (k < n)%nat /\ rmin n f = f k.
Proof.
  induction n; intros H; [lia|]. destruct n; [exists 0%nat; split; [lia|reflexivity]|].
  change (rmin (S (S n)) f) with (Rmin (rmin (S n) f) (f (S n))).
  destruct (IHn ltac:(lia)) as (k & Hk & E).
  destruct (Rle_dec (rmin (S n) f) (f (S n))).
  - exists k. split; [lia|]. rewrite Rmin_left by lra. exact E.
  - exists (S n). split; [lia|]. apply Rmin_right. lra.
Qed.
Lemma rmax_ext n f g : (forall k, (k < n)%nat -> f k = g k) -> rmax n f = rmax n g.
Proof.
  induction n; intros H; [reflexivity|]. destruct n; [cbn; apply H; lia|].
  change (Rmax (rmax (S n) f) (f (S n)) = Rmax (rmax (S n) g) (g (S n))).
  rewrite IHn, H by (intros; try apply H; lia). reflexivity.
Qed.
Lemma rmin_ext n f g : (forall k, (k < n)%nat -> f k = g k) -> rmin n f = rmin n g.
Proof.
  induction n; intros H; [reflexivity|]. destruct n; [cbn; apply H; lia|].
  change (Rmin (rmin (S n) f) (f (S n)) = Rmin (rmin (S n) g) (g (S n))).
  rewrite IHn, H by (intros; try apply H; lia). reflexivity.
Qed.

Lemma set_nth_length d k ix : length (set_nth d k ix) = length ix.
Proof. revert d. induction ix; destruct d; cbn; auto. Qed.
Lemma set_nth_set_nth d k j ix : set_nth d k (set_nth d j ix) = set_nth d k ix.
Proof. revert d. induction ix; destruct d; cbn; auto. now rewrite IHix. Qed.
Lemma set_nth_same d ix : (d < length ix)%nat -> set_nth d (nth d ix 0%nat) ix = ix.
Proof. revert d. induction ix; destruct d; cbn; intros; auto; try lia. now rewrite IHix by lia. Qed.
Lemma nth_set_nth d k ix : (d < length ix)%nat -> nth d (set_nth d k ix) 0%nat = k.
Proof. revert d. induction ix; destruct d; cbn; intros; auto; try lia. apply IHix. lia. Qed.
Lemma valid_nth s : forall ix d, valid s ix -> (d < length s)%nat -> (nth d ix 0 < nth d s 0)%nat.
Proof.
  induction s; destruct ix; cbn; intros d H Hd; try lia; try contradiction.
  destruct d; [apply H|]. apply IHs; [apply H|lia].
Qed.
Lemma valid_set_nth s : forall ix d k, valid s ix -> (k < nth d s 0)%nat -> valid s (set_nth d k ix).
Proof.
  induction s; destruct ix; cbn; intros d k H Hk; try (destruct d; cbn in *; lia); try contradiction.
  destruct d; cbn; [split; [lia|apply H]|]. split; [apply H|]. apply IHs; [apply H|auto].
Qed.

Lemma wrap_last n : (1 <= n)%nat -> wrap n (Z.of_nat n - 1) = (n - 1)%nat.
Proof. intros H. rewrite wrap_nat by lia. lia. Qed.
Lemma index_ok_last n : (1 <= n)%nat -> index_ok n (Z.of_nat n - 1) = true.
Proof. intros H. unfold index_ok. apply Bool.andb_true_iff. split; [apply Z.leb_le|apply Z.ltb_lt]; lia. Qed.

(** ** Slices *)

Lemma set_nth_slice d k ix : same_slice d ix (set_nth d k ix).
Proof.
  split; [now rewrite set_nth_length|]. revert d. induction ix; intros d e He; [destruct d, e; reflexivity|].
  destruct d, e; cbn; auto; try lia.
Qed.
Lemma same_slice_set d ix jx : same_slice d ix jx -> (d < length ix)%nat -> set_nth d (nth d jx 0%nat) ix = jx.
Proof.
  intros [HL HE] Hd. apply (nth_ext _ _ 0%nat 0%nat); [now rewrite set_nth_length|].
  intros e He. destruct (Nat.eq_dec e d) as [->|N]; [now rewrite nth_set_nth|].
  rewrite <- (HE e) by auto. symmetry. now apply set_nth_slice.
Qed.
Lemma same_slice_refl d ix : same_slice d ix ix.
Proof. split; auto. Qed.
Lemma same_slice_sym d ix jx : same_slice d ix jx -> same_slice d jx ix.
Proof. intros [A B]. split; auto. intros. symmetry. auto. Qed.
Lemma same_slice_trans d ix jx kx : same_slice d ix jx -> same_slice d jx kx -> same_slice d ix kx.
Proof. intros [A B] [C D]. split; [congruence|]. intros. rewrite B, D; auto. Qed.

Lemma largest_unique {T} (A : T -> Prop) f M M' : is_largest A f M -> is_largest A f M' -> M = M'.
Proof. intros [(a & Ha & <-) L] [(b & Hb & <-) L']. apply Rle_antisym; auto. Qed.
Lemma smallest_unique {T} (A : T -> Prop) f M M' : is_smallest A f M -> is_smallest A f M' -> M = M'.
Proof. intros [(a & Ha & <-) L] [(b & Hb & <-) L']. apply Rle_antisym; auto. Qed.

Lemma rmax_slice s d ix (f : list nat -> R) : valid s ix -> (d < length s)%nat ->
  is_largest (in_slice s d ix) f (rmax (nth d s 0%nat) (fun k => f (set_nth d k ix))).
Proof.
  intros Hv Hd. assert (L := valid_length s ix Hv). assert (Hn := valid_nth s ix d Hv Hd).
  split.
  - destruct (rmax_att (nth d s 0%nat) (fun k => f (set_nth d k ix))) as (k & Hk & E); [lia|].
    exists (set_nth d k ix). split; [split|]; auto; [now apply valid_set_nth|apply set_nth_slice].
  - intros jx [Hj Hs]. rewrite <- (same_slice_set d ix jx Hs) by (rewrite L; auto).
    apply (rmax_ge (nth d s 0%nat) (fun k => f (set_nth d k ix))). now apply valid_nth.
Qed.
Lemma rmin_slice s d ix (f : list nat -> R) : valid s ix -> (d < length s)%nat ->
  is_smallest (in_slice s d ix) f (rmin (nth d s 0%nat) (fun k => f (set_nth d k ix))).
Proof.
  intros Hv Hd. assert (L := valid_length s ix Hv). assert (Hn := valid_nth s ix d Hv Hd).
  split.
  - destruct (rmin_att (nth d s 0%nat) (fun k => f (set_nth d k ix))) as (k & Hk & E); [lia|].
    exists (set_nth d k ix). split; [split|]; auto; [now apply valid_set_nth|apply set_nth_slice].
  - intros jx [Hj Hs]. rewrite <- (same_slice_set d ix jx Hs) by (rewrite L; auto).
    apply (rmin_le (nth d s 0%nat) (fun k => f (set_nth d k ix))). now apply valid_nth.
Qed.

Lemma index_ok_wrap n z : index_ok n z = true -> (wrap n z < n)%nat.
Proof.
  unfold index_ok, wrap. rewrite Bool.andb_true_iff, Z.leb_le, Z.ltb_lt. intros [A B].
  destruct (Z.ltb_spec z 0); lia.
Qed.

(** ** The two normalisations along a dimension *)

Lemma max_abs_spec x eps dim : index_ok (length (shape x)) dim = true ->
  let d := wrap (length (shape x)) dim in nth d (shape x) 0%nat <> 0%nat ->
  exists y, max_abs_normalization x eps dim = Ok y /\ shape y = shape x /\
  forall ix, valid (shape x) ix -> exists M,
    is_largest (in_slice (shape x) d ix) (fun jx => Rabs (at_ x jx)) M /\ at_ y ix = at_ x ix / (M + eps).
Proof.
  intros Hok d Hd. unfold max_abs_normalization, max_abs, reduce_keep. cbn [shape tmap]. rewrite Hok. fold d.
  apply Nat.eqb_neq in Hd. rewrite Hd. cbn [andb rbind].
  eexists; split; [reflexivity|]. split; [reflexivity|]. intros ix Hv.
  assert (Hdl : (d < length (shape x))%nat) by now apply index_ok_wrap.
  eexists; split; [apply (rmax_slice (shape x) d ix (fun jx => Rabs (at_ x jx))); auto|].
  cbn [with_reduced at_]. fold d. do 2 f_equal. apply rmax_ext. intros k Hk. now rewrite set_nth_set_nth.
Qed.

Lemma max_center_spec x eps dim : index_ok (length (shape x)) dim = true ->
  let d := wrap (length (shape x)) dim in nth d (shape x) 0%nat <> 0%nat ->
  exists y, max_center_normalization x eps dim = Ok y /\ shape y = shape x /\
  forall ix, valid (shape x) ix -> exists M m,
    is_largest (in_slice (shape x) d ix) (at_ x) M /\ is_smallest (in_slice (shape x) d ix) (at_ x) m /\
    at_ y ix = (at_ x ix - (M + m) / 2) / ((M - m) / 2 + eps).
Proof.
  intros Hok d Hd. unfold max_center_normalization, reduce_keep. rewrite Hok. fold d.
  apply Nat.eqb_neq in Hd. rewrite Hd. cbn [andb rbind].
  eexists; split; [reflexivity|]. split; [reflexivity|]. intros ix Hv.
  assert (Hdl : (d < length (shape x))%nat) by now apply index_ok_wrap.
  eexists; eexists; split; [apply (rmax_slice (shape x) d ix (at_ x)); auto|].
  split; [apply (rmin_slice (shape x) d ix (at_ x)); auto|].
  cbn [with_reduced at_ tmap2 shape]. fold d.
  rewrite (rmax_ext _ (fun k => at_ x (set_nth d k (set_nth d 0%nat ix))) (fun k => at_ x (set_nth d k ix)))
    by (intros; now rewrite set_nth_set_nth).
  rewrite (rmin_ext _ (fun k => at_ x (set_nth d k (set_nth d 0%nat ix))) (fun k => at_ x (set_nth d k ix)))
    by (intros; now rewrite set_nth_set_nth).
  f_equal; [field|]. f_equal. field.
Qed.

(** Whole-sample variants. *)
Section Nd.
Variables (x : tensor R) (d0 : nat) (s : list nat).
Hypothesis Hx : shape x = d0 :: s.
Hypothesis H0 : d0 <> 0%nat.
Hypothesis Hs : prodn s <> 0%nat.
Let P := prodn s.

Lemma nd_view : exists xn, view_infer [nth 0 (shape x) 0%nat] [] x = Ok xn /\ shape xn = [d0; P] /\
  forall b r, (r < P)%nat -> at_ xn [b; r] = at_ x (b :: unravel s r).
Proof.
  unfold view_infer. rewrite Hx. cbn [nth prodn]. rewrite !Nat.mul_1_r.
  destruct (Nat.eqb_spec d0 0); [contradiction|].
  unfold numel. rewrite Hx. cbn [prodn]. fold P.
  rewrite Nat.mul_comm, Nat.mod_mul, Nat.div_mul by auto. cbn [Nat.eqb app].
  unfold reshape, numel. rewrite Hx. cbn [prodn]. fold P. rewrite Nat.mul_1_r, Nat.eqb_refl.
  eexists; split; [reflexivity|]. split; [reflexivity|].
  intros b r Hr. cbn [at_]. f_equal. cbn [ravel unravel prodn]. fold P.
  rewrite !Nat.mul_1_r, !Nat.add_0_r, div_add_l, mod_add_l by auto. reflexivity.
Qed.

Lemma nd_back (y : tensor R) : shape y = [d0; P] ->
  exists z, reshape (shape x) y = Ok z /\ shape z = shape x /\
  forall b ix, valid s ix -> at_ z (b :: ix) = at_ y [b; ravel s ix].
Proof.
  intros Hy. unfold reshape, numel. rewrite Hx, Hy. cbn [prodn]. fold P. rewrite Nat.mul_1_r, Nat.eqb_refl.
  eexists; split; [reflexivity|]. split; [reflexivity|].
  intros b ix Hv. cbn [at_]. f_equal. assert (L := ravel_lt s ix Hv).
  cbn [ravel unravel prodn]. fold P in L |- *. rewrite !Nat.mul_1_r, Nat.div_1_r, div_add_l, mod_add_l by auto. reflexivity.
Qed.

Lemma sample_slice (xn : tensor R) b ix : shape xn = [d0; P] ->
  (forall b r, (r < P)%nat -> at_ xn [b; r] = at_ x (b :: unravel s r)) ->
  valid (shape x) (b :: ix) ->
  (forall M, is_largest (in_slice (shape xn) 1 [b; ravel s ix]) (at_ xn) M -> is_largest (in_sample (shape x) b) (at_ x) M) /\
  (forall M, is_smallest (in_slice (shape xn) 1 [b; ravel s ix]) (at_ xn) M -> is_smallest (in_sample (shape x) b) (at_ x) M) /\
  (forall M, is_largest (in_slice (shape xn) 1 [b; ravel s ix]) (fun j => Rabs (at_ xn j)) M -> is_largest (in_sample (shape x) b) (fun j => Rabs (at_ x j)) M).
Proof.
  intros Hxn Vn Hv. rewrite Hx in Hv. destruct Hv as [Hb Hv].
  assert (F : forall jx, in_slice (shape xn) 1 [b; ravel s ix] jx -> exists r, (r < P)%nat /\ jx = [b; r]).
  { intros jx [Hj [HL HE]]. rewrite Hxn in Hj. apply valid2 in Hj. destruct Hj as (i & r & -> & Hi & Hr).
    exists r. split; auto. specialize (HE 0%nat ltac:(lia)). cbn in HE. now subst. }
  assert (G : forall jx, in_sample (shape x) b jx -> exists r, (r < P)%nat /\ jx = b :: unravel s r).
  { intros jx [Hj Hh]. rewrite Hx in Hj. destruct jx as [|i jx]; [contradiction|]. cbn in Hh. subst i. destruct Hj as [_ Hj].
    exists (ravel s jx). split; [now apply ravel_lt|]. now rewrite unravel_ravel. }
  assert (F' : forall r, (r < P)%nat -> in_slice (shape xn) 1 [b; ravel s ix] [b; r]).
  { intros r Hr. split; [rewrite Hxn; cbn; auto|]. split; [reflexivity|]. intros [|[|e]] He; cbn; auto; lia. }
  assert (G' : forall r, (r < P)%nat -> in_sample (shape x) b (b :: unravel s r)).
  { intros r Hr. split; [rewrite Hx; split; auto; now apply unravel_valid|reflexivity]. }
  split; [|split]; intros M [(a & Ha & Ea) L]; (destruct (F a Ha) as (r & Hr & ->); split;
    [exists (b :: unravel s r); split; [now apply G'|rewrite <- Vn by auto; exact Ea]
    |intros jx Hj; destruct (G jx Hj) as (q & Hq & ->); rewrite <- Vn by auto; apply (L [b; q]); now apply F']).
Qed.

Lemma max_abs_nd_spec eps :
  exists y, max_abs_normalization_nd x eps = Ok y /\ shape y = shape x /\
  forall b ix, valid (shape x) (b :: ix) -> exists M,
    is_largest (in_sample (shape x) b) (fun jx => Rabs (at_ x jx)) M /\ at_ y (b :: ix) = at_ x (b :: ix) / (M + eps).
Proof.
  destruct nd_view as (xn & E & Sn & Vn).
  destruct (max_abs_spec xn eps 1) as (y & Ey & Sy & Vy); [rewrite Sn; reflexivity|rewrite Sn; exact Hs|].
  rewrite Sn in Sy. destruct (nd_back y Sy) as (z & Ez & Sz & Vz).
  exists z. split; [|split; auto].
  - unfold max_abs_normalization_nd. rewrite E. cbn [rbind].
    unfold max_abs_normalization, rbind in Ey. destruct (max_abs xn 1) as [m|]; [|discriminate]. cbn [rbind].
    injection Ey as <-. exact Ez.
  - intros b ix Hv. assert (Hv' := Hv). rewrite Hx in Hv'. destruct Hv' as [Hb Hi].
    assert (L := ravel_lt s ix Hi).
    destruct (Vy [b; ravel s ix]) as (M & HM & EM); [rewrite Sn; cbn; auto|].
    exists M. split; [now apply (sample_slice xn b ix Sn Vn Hv)|].
    rewrite Vz, EM by auto. rewrite Vn by auto. now rewrite unravel_ravel.
Qed.

Lemma max_center_nd_spec eps :
  exists y, max_center_normalization_nd x eps = Ok y /\ shape y = shape x /\
  forall b ix, valid (shape x) (b :: ix) -> exists M m,
    is_largest (in_sample (shape x) b) (at_ x) M /\ is_smallest (in_sample (shape x) b) (at_ x) m /\
    at_ y (b :: ix) = (at_ x (b :: ix) - (M + m) / 2) / ((M - m) / 2 + eps).
Proof.
  destruct nd_view as (xn & E & Sn & Vn).
  destruct (max_center_spec xn eps 1) as (y & Ey & Sy & Vy); [rewrite Sn; reflexivity|rewrite Sn; exact Hs|].
  rewrite Sn in Sy. destruct (nd_back y Sy) as (z & Ez & Sz & Vz).
  exists z. split; [|split; auto].
  - unfold max_center_normalization_nd. rewrite E. cbn [rbind]. rewrite Ey. exact Ez.
  - intros b ix Hv. assert (Hv' := Hv). rewrite Hx in Hv'. destruct Hv' as [Hb Hi].
    assert (L := ravel_lt s ix Hi).
    destruct (Vy [b; ravel s ix]) as (M & m & HM & Hm & EM); [rewrite Sn; cbn; auto|].
    destruct (sample_slice xn b ix Sn Vn Hv) as (Q1 & Q2 & _).
    exists M, m. split; [now apply Q1|]. split; [now apply Q2|].
    rewrite Vz, EM by auto. rewrite Vn by auto. now rewrite unravel_ravel.
Qed.
End Nd.

(** ** Arithmetic of the two formulas *)

Lemma frac_bounds u k : 0 < k -> - k < u < k -> -1 < u / k < 1.
Proof.
  intros Hk Hu. split; apply Rmult_lt_reg_r with k; auto; unfold Rdiv; rewrite Rmult_assoc, Rinv_l by lra; lra.
Qed.
Lemma abs_norm_bounds a M eps : 0 < eps -> Rabs a <= M -> -1 < a / (M + eps) < 1.
Proof.
  intros He Ha. assert (P := Rabs_pos a). pose proof (Rle_abs a). pose proof (Rle_abs (- a)). rewrite Rabs_Ropp in *.
  apply frac_bounds; lra.
Qed.
Lemma center_norm_bounds a M m eps : 0 < eps -> m <= a <= M ->
  -1 < (a - (M + m) / 2) / ((M - m) / 2 + eps) < 1.
Proof. intros He Ha. apply frac_bounds; lra. Qed.
