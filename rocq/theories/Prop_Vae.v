(** * C51, C62: the variational autoencoder (networks.py, VanillaVAE). *)
From Coq Require Import Reals List Bool Arith Lia Lra.
From Verif Require Import Spec Tensor Layers Attention Vae ObserveAttention SumFacts TensorFacts AttentionFacts Prop_Embedding.
Import ListNotations.
Local Open Scope R_scope.

(** Divergence of a normal distribution with mean [m] and log-variance [v] from the standard one. *)
Definition kl (m v : R) : R := (m ^ 2 + exp v - 1 - v) / 2.

Lemma exp_ge v : 1 + v <= exp v /\ (exp v = 1 + v -> v = 0).
Proof.
  destruct (Req_dec v 0) as [->|Hv]; [rewrite exp_0; split; [lra|auto]|].
  assert (1 + v < exp v); [|split; lra]. destruct (Rlt_le_dec 0 v) as [Hp|Hn]; [now apply exp_ineq1|].
  assert (v < 0) by lra. pose proof (exp_pos v).
  destruct (Rle_dec v (-1)) as [L|G]; [lra|]. apply exp_ineq1. lra.
Qed.
Lemma kl_nonneg m v : 0 <= kl m v /\ (kl m v = 0 -> m = 0 /\ v = 0).
Proof.
  destruct (exp_ge v) as (H1 & H2). assert (0 <= m ^ 2) by (rewrite <- Rsqr_pow2; apply Rle_0_sqr). unfold kl. split; [lra|]. intros E.
  assert (m ^ 2 = 0) by lra. split; [|apply H2; lra]. rewrite <- Rsqr_pow2 in H0. now apply Rsqr_0_uniq.
Qed.
Lemma rsum_zero_iff n f : (forall i, (i < n)%nat -> 0 <= f i) -> rsum n f = 0 -> forall i, (i < n)%nat -> f i = 0.
Proof.
  intros Hp E i Hi. destruct (Req_dec (f i) 0) as [|N]; auto. exfalso. pose proof (rsum_pos n f Hp) as P. pose proof (Hp i Hi).
  assert (0 < rsum n f) by (apply P; exists i; split; auto; lra). lra.
Qed.

Lemma bindex_self s ix : valid s ix -> bindex s ix = ix.
Proof. intros V. unfold bindex. rewrite (valid_length _ _ V), Nat.sub_diag. cbn [skipn]. now apply bc_list_self. Qed.
Lemma bshape_self s : bshape s s = Some s.
Proof.
  unfold bshape. enough (H : forall l, bshape_rev l l = Some l) by (rewrite H, rev_involutive; reflexivity).
  induction l as [|a l IH]; [reflexivity|]. cbn [bshape_rev]. now rewrite bsize_refl, IH.
Qed.
Lemma broadcast_same f a b : shape a = shape b -> exists c, broadcast2 f a b = Ok c /\ shape c = shape a /\
  forall ix, valid (shape a) ix -> at_ c ix = f (at_ a ix) (at_ b ix).
Proof.
  intros S. unfold broadcast2. rewrite <- S, bshape_self. eexists. split; [reflexivity|]. split; [reflexivity|]. intros ix V. cbn [at_]. now rewrite !bindex_self.
Qed.

(** For mean and log-variance of the same shape [B, D] and a reconstruction of the shape of the input, the loss is the mean
    squared error plus the weighted divergence; both are non-negative, and zero only for a perfect reconstruction,
    respectively a standard normal posterior.  The entry KLD is minus the divergence. *)
Theorem C51_loss : forall recons input mu log_var w B D, shape recons = shape input -> (1 <= numel input)%nat ->
  shape mu = [B; D] -> shape log_var = [B; D] -> (1 <= B)%nat ->
  exists rec div, loss_function [recons; input; mu; log_var] (Some w) = Ok (mkLosses (Some (rec + w * div)) (Some rec) (Some (- div))) /\
    rec = rsum (numel input) (fun k => (at_ recons (unravel (shape input) k) - at_ input (unravel (shape input) k)) ^ 2) / INR (numel input) /\
    div = rsum B (fun b => rsum D (fun d => kl (at_ mu [b; d]) (at_ log_var [b; d]))) / INR B /\
    0 <= rec /\ 0 <= div /\ (0 <= w -> 0 <= rec + w * div) /\
    (rec = 0 <-> forall ix, valid (shape input) ix -> at_ recons ix = at_ input ix) /\
    (div = 0 <-> forall b d, (b < B)%nat -> (d < D)%nat -> at_ mu [b; d] = 0 /\ at_ log_var [b; d] = 0).
Proof.
  intros recons input mu lv w B D Sr Hn Sm Sl HB. unfold loss_function, arg. cbn [nth_error rbind].
  destruct (broadcast_same Rminus recons input Sr) as (e & Ee & Se & Ve). unfold mse_loss. rewrite Ee. cbn [rbind].
  assert (Ne : numel e = numel input) by (unfold numel; now rewrite Se, Sr). rewrite Ne.
  destruct (Nat.eqb_spec (numel input) 0); [lia|].
  destruct (broadcast_same Rminus (tmap (fun v => 1 + v) lv) (tmap (fun m => m ^ 2) mu)) as (t & -> & St & Vt); [cbn; congruence|]. cbn [rbind tmap shape at_] in *.
  destruct (broadcast_same Rminus t (tmap exp lv)) as (u & -> & Su & Vu); [exact St|]. cbn [rbind tmap shape at_] in *.
  rewrite Su, St, Sl. destruct (Nat.eqb_spec B 0); [lia|]. cbn [nscale nplus].
  set (rec := rsum (numel input) _ / _). set (d0 := rsum B _ / INR B).
  assert (Erec : rec = rsum (numel input) (fun k => (at_ recons (unravel (shape input) k) - at_ input (unravel (shape input) k)) ^ 2) / INR (numel input)).
  { unfold rec. f_equal. apply rsum_ext. intros k Hk. rewrite Se, Sr, Ve; [reflexivity|]. rewrite Sr. apply unravel_valid, Hk. }
  assert (Ediv : d0 = rsum B (fun b => rsum D (fun d => kl (at_ mu [b; d]) (at_ lv [b; d]))) / INR B).
  { unfold d0. f_equal. apply rsum_ext. intros b Hb. rewrite <- rsum_scal. apply rsum_ext. intros d Hd.
    rewrite Vu, Vt by (rewrite ?St, Sl; cbn; auto). unfold kl. lra. }
  assert (PN : 0 < INR (numel input)) by (apply lt_0_INR; lia). assert (PB : 0 < INR B) by (apply lt_0_INR; lia).
  assert (Sq : forall x : R, 0 <= x ^ 2) by (intros x; rewrite <- Rsqr_pow2; apply Rle_0_sqr).
  assert (Hrec : 0 <= rec) by (rewrite Erec; apply Rmult_le_pos; [apply rsum_nonneg; intros; apply Sq|left; now apply Rinv_0_lt_compat]).
  assert (Hdiv : 0 <= d0) by (rewrite Ediv; apply Rmult_le_pos; [apply rsum_nonneg; intros; apply rsum_nonneg; intros; apply kl_nonneg|left; now apply Rinv_0_lt_compat]).
  assert (Z : forall x n, 0 < n -> x / n = 0 -> x = 0) by (intros x nn Pn E; apply (Rmult_eq_reg_r (/ nn)); [|apply Rgt_not_eq, Rinv_0_lt_compat, Pn]; unfold Rdiv in E; lra).
  exists rec, d0. split; [f_equal; f_equal; f_equal; ring|]. split; [exact Erec|]. split; [exact Ediv|]. split; [exact Hrec|]. split; [exact Hdiv|].
  split; [intros Hw; assert (0 <= w * d0) by (now apply Rmult_le_pos); lra|]. split; split.
  - intros E ix V. rewrite Erec in E. apply Z in E; auto. pose proof (rsum_zero_iff _ _ (fun i _ => Sq _) E (ravel (shape input) ix) (ravel_lt _ _ V)) as E0. cbv beta in E0.
    rewrite unravel_ravel in E0 by auto. rewrite <- Rsqr_pow2 in E0. apply Rsqr_0_uniq in E0. lra.
  - intros Hall. rewrite Erec, rsum_zero; [unfold Rdiv; ring|]. intros k Hk. rewrite Hall by (apply unravel_valid, Hk). ring.
  - intros E b d Hb Hd. rewrite Ediv in E. apply Z in E; auto.
    assert (P : forall b, (b < B)%nat -> 0 <= rsum D (fun d => kl (at_ mu [b; d]) (at_ lv [b; d]))) by (intros; apply rsum_nonneg; intros; apply kl_nonneg).
    pose proof (rsum_zero_iff _ _ P E b Hb) as E1. cbv beta in E1. pose proof (rsum_zero_iff _ _ (fun d _ => proj1 (kl_nonneg _ _)) E1 d Hd) as E2. now apply kl_nonneg.
  - intros Hall. rewrite Ediv, rsum_zero; [unfold Rdiv; ring|]. intros b Hb. apply rsum_zero. intros d Hd. destruct (Hall b d Hb Hd) as (-> & ->). unfold kl. rewrite exp_0. field.
Qed.
Print Assumptions C51_loss.

(** Without the keyword M_N, or with fewer than four positional arguments, there is no loss. *)
Theorem C51_missing_arguments : forall args w,
  ((length args < 4)%nat -> loss_function args w = Err IndexError) /\
  ((4 <= length args)%nat -> loss_function args None = Err KeyError).
Proof.
  intros args w. unfold loss_function, arg. split; intros H; destruct args as [|a [|b [|c [|d r]]]]; cbn in *; try lia; reflexivity.
Qed.
Print Assumptions C51_missing_arguments.

(** ** The forward pass *)

Record vae_weights (m : vae) (D F : nat) : Prop := mkVW {
  vw_latent : va_latent m = D; vw_mu : shape (va_mu_w m) = [D; F]; vw_var : shape (va_var_w m) = [D; F];
  vw_dec : shape (va_dec_w m) = [va_in_channels m; D]; vw_ch : (1 <= va_in_channels m)%nat }.

(** [forward] returns the decoded sample, the input itself, and mean and log-variance: affine functions of the encoder's
    output [F] features per sample.  The decoder gets, sample by sample, an affine image of [mean + noise * exp(log_var/2)]. *)
Theorem C62_forward : forall m noise x D F r B s, vae_weights m D F ->
  va_encoder m x = Ok r -> shape r = B :: s -> s <> [] -> prodn s = F ->
  exists mu lv z, vae_forward m noise x = (y <- va_decoder m z ;; Ok [y; x; mu; lv]) /\
    vae_generate m noise x = va_decoder m z /\
    shape mu = [B; D] /\ shape lv = [B; D] /\ shape z = [B; va_in_channels m; 1; 1]%nat /\
    (forall b d, (b < B)%nat -> (d < D)%nat ->
       at_ mu [b; d] = affine F (va_mu_w m) (va_mu_b m) (fun k => at_ r (b :: unravel s k)) d /\
       at_ lv [b; d] = affine F (va_var_w m) (va_var_b m) (fun k => at_ r (b :: unravel s k)) d) /\
    (forall b c, (b < B)%nat -> (c < va_in_channels m)%nat ->
       at_ z [b; c; 0; 0]%nat = affine D (va_dec_w m) (va_dec_b m) (fun d => at_ mu [b; d] + noise [b; d] * exp (at_ lv [b; d] / 2)) c).
Proof.
  intros m noise x D F r B s [HD Smu Svar Sdec HC] Er Sr Hs Hp. unfold vae_generate, vae_forward, vae_encode. rewrite Er. cbn [rbind].
  destruct s as [|f s]; [contradiction|]. unfold flatten1. rewrite Sr, Hp.
  destruct (reshape_ok r [B; F]) as (r1 & -> & Sr1 & Vr1); [unfold numel; rewrite Sr; cbn in *; nia|]. cbn [rbind].
  destruct (linear2_ok (va_mu_w m) (va_mu_b m) r1 B F D Sr1 Smu) as (mu & -> & Sm & Vm). cbn [rbind].
  destruct (linear2_ok (va_var_w m) (va_var_b m) r1 B F D Sr1 Svar) as (lv & -> & Sl & Vl). cbn [rbind fst snd].
  unfold reparameterize. cbn [tmap shape at_].
  destruct (broadcast_same Rmult (mkT (shape lv) noise) (mkT (shape lv) (fun ix => exp (5 / 10 * at_ lv ix))) eq_refl) as (t & Et & St & Vt). cbn [shape at_] in *.
  unfold tmap. rewrite Et. cbn [rbind].
  destruct (broadcast_same Rplus t mu) as (z0 & -> & Sz & Vz); [congruence|]. cbn [rbind].
  unfold vae_decode. rewrite St, Sl in Sz. destruct (linear2_ok (va_dec_w m) (va_dec_b m) z0 B D _ Sz Sdec) as (z1 & -> & Sz1 & Vz1). cbn [rbind].
  destruct (view_infer_ok z1 [] [va_in_channels m; 1; 1]%nat B) as (z & -> & Sz2 & Vz2); [cbn; lia|unfold numel; rewrite Sz1; cbn; ring|]. cbn [rbind app] in *.
  exists mu, lv, z. split; [reflexivity|]. split; [destruct (va_decoder m z); reflexivity|]. do 3 (split; [assumption|]).
  assert (Vr : forall b k, (b < B)%nat -> (k < F)%nat -> at_ r1 [b; k] = at_ r (b :: unravel (f :: s) k)).
  { intros b k Hb Hk. assert (R : ravel (f :: s) (unravel (f :: s) k) = k) by (apply ravel_unravel; lia).
    apply Vr1; rewrite Sr; [split; [auto|apply unravel_valid; lia]|].
    change (ravel (B :: f :: s) (b :: unravel (f :: s) k)) with (b * prodn (f :: s) + ravel (f :: s) (unravel (f :: s) k))%nat. rewrite R, Hp. cbn [ravel prodn]. lia. }
  split.
  - intros b d Hb Hd. rewrite Vm, Vl. unfold affine. split; f_equal; apply rsum_ext; intros k Hk; now rewrite Vr.
  - intros b c Hb Hc. rewrite (Vz2 [b; c; 0; 0]%nat [b; c]); [|rewrite Sz1; cbn; auto|rewrite Sz1; cbn; ring].
    rewrite Vz1. unfold affine. f_equal. apply rsum_ext. intros d Hd. f_equal. rewrite Vz, Vt by (rewrite ?St, ?Sl; cbn; auto). replace (5 / 10 * at_ lv [b; d]) with (at_ lv [b; d] / 2) by field. ring.
Qed.
Print Assumptions C62_forward.

(** A machine for pairs of numbers: encoder and decoder are the identity up to shape. *)
Definition demo_vae : vae :=
  mkVAE 2 (fun x => Ok x) (fun z => reshape [3; 2]%nat z) 2
    (mkT [2; 2]%nat (fun ix => if Nat.eqb (nth 0 ix 0%nat) (nth 1 ix 0%nat) then 1 else 0)) (zeros [2]%nat) (zeros [2; 2]%nat) (zeros [2]%nat)
    (mkT [2; 2]%nat (fun ix => if Nat.eqb (nth 0 ix 0%nat) (nth 1 ix 0%nat) then 1 else 0)) (zeros [2]%nat).
Example C62_case : exists y mu lv, vae_forward demo_vae (fun _ => 3) (mkT [3; 2]%nat (fun ix => INR (nth 0 ix 0%nat))) =
  Ok [y; mkT [3; 2]%nat (fun ix => INR (nth 0 ix 0%nat)); mu; lv] /\ at_ y [1; 0]%nat = 4.
Proof.
  set (x := mkT _ _).
  destruct (C62_forward demo_vae (fun _ => 3) x 2 2 x 3 [2%nat]) as (mu & lv & z & E & _ & Sm & Sl & Sz & Vml & Vz);
    try reflexivity; try discriminate; [constructor; reflexivity || (cbn; lia)|].
  rewrite E. cbn [va_decoder demo_vae]. destruct (reshape_ok z [3; 2]%nat) as (y & -> & Sy & Vy); [unfold numel; rewrite Sz; reflexivity|]. cbn [rbind].
  exists y, mu, lv. split; [reflexivity|]. rewrite (Vy [1; 0]%nat [1; 0; 0; 0]%nat); [|rewrite Sz; cbn; lia|rewrite Sz; reflexivity].
  rewrite Vz by (cbn; lia). pose proof (Vml 1 0 ltac:(lia) ltac:(lia))%nat as (M0 & L0). pose proof (Vml 1 1 ltac:(lia) ltac:(lia))%nat as (M1 & L1).
  unfold affine in *. cbn [rsum at_ nth Nat.eqb va_dec_w va_dec_b va_mu_w va_mu_b va_var_w va_var_b demo_vae zeros x unravel prodn Nat.div Nat.modulo Nat.divmod fst snd Nat.sub INR] in *.
  rewrite M0, M1, L0, L1. replace ((0 + 1 * 0 + 1 * 0 + 0) / 2) with 0 by field. rewrite exp_0. ring.
Qed.
Example C51_case : exists rec div, loss_function [zeros [3; 2]%nat; mkT [3; 2]%nat (fun ix => INR (nth 0 ix 0%nat)); mkT [2; 1]%nat (fun _ => 2); zeros [2; 1]%nat] (Some 10) =
  Ok (mkLosses (Some (rec + 10 * div)) (Some rec) (Some (- div))) /\ div = 2 /\ rec = 5 / 3.
Proof.
  set (input := mkT [3; 2]%nat _). set (mu := mkT [2; 1]%nat _). set (lv := zeros [2; 1]%nat).
  destruct (C51_loss (zeros [3; 2]%nat) input mu lv 10 2 1) as (rec & div & E & R & Dv & _); try reflexivity; try lia; [unfold numel; cbn [shape input prodn]; lia|].
  exists rec, div. split; [exact E|]. rewrite R, Dv. unfold kl, mu, lv, input. split.
  - cbn [rsum at_ zeros INR]. rewrite exp_0. field.
  - unfold numel. cbn [shape prodn Nat.mul Nat.add]. cbn [rsum unravel prodn Nat.mul Nat.add Nat.div Nat.modulo Nat.divmod fst snd Nat.sub at_ nth zeros INR]. field.
Qed.
