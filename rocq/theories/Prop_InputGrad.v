(** * Derivatives with respect to the inputs (C105). *)
From Coq Require Import Reals ZArith List Lia Lra Psatz.
From Verif Require Import Spec Tensor Utils LagrangePolynomial Basis PolynomialLayers Observe
  SumFacts TensorFacts LagrangeFacts LayerFacts SegmentFacts LayerProofs LebesgueFacts Prop_Basis Prop_Layers Prop_Bounds Prop_Approx Prop_Lipschitz.
Import ListNotations.
Local Open Scope R_scope.

(** [x] lies inside segment [s], off the knots (the end segments extend beyond -1 and 1). *)
Definition inside (S s : nat) (x : R) : Prop :=
  (s < S)%nat /\ (s = 0%nat \/ knot S s < x) /\ (S = Datatypes.S s \/ x < knot S (Datatypes.S s)).
(** Polynomial of link [(o,i)] on segment [s], in the local coordinate. *)
Definition segment_polynomial (l : piecewise) (o i s : nat) (P : R -> R) : Prop :=
  interpolates (pw_n l) (fun k => at_ (pw_w l) [o; i; weight_pos (pw_cls l) (pw_n l) s k]) P.
(** The output as a function of input [i] alone. *)
Definition along (l : piecewise) (v : nat -> R) (o i : nat) : R -> R := fun t => layer_out l (set_entry v i t) o.

(** ** Calculus *)
Lemma lim_unique_side (sgn : R) f g x d d' delta : sgn <> 0 -> 0 < delta ->
  (forall t, 0 <= t < delta -> f (x + sgn * t) = g (x + sgn * t)) ->
  derivable_pt_lim f x d -> derivable_pt_lim g x d' -> d = d'.
Proof.
  intros Hs Hd E Df Dg. destruct (Req_dec d d') as [|N]; [assumption|exfalso].
  assert (E0 : 0 < Rabs (d - d') / 2) by (assert (0 < Rabs (d - d')) by (apply Rabs_pos_lt; lra); lra).
  destruct (Df _ E0) as (d1 & H1). destruct (Dg _ E0) as (d2 & H2). pose proof (cond_pos d1). pose proof (cond_pos d2).
  assert (S0 : 0 < Rabs sgn) by now apply Rabs_pos_lt.
  set (t := Rmin (delta / 2) (Rmin (d1 / (2 * Rabs sgn)) (d2 / (2 * Rabs sgn)))).
  assert (T0 : 0 < t) by (repeat apply Rmin_glb_lt; try apply Rdiv_lt_0_compat; lra).
  assert (T1 : t <= delta / 2) by apply Rmin_l.
  assert (T2 : t <= d1 / (2 * Rabs sgn)) by (eapply Rle_trans; [apply Rmin_r|apply Rmin_l]).
  assert (T3 : t <= d2 / (2 * Rabs sgn)) by (eapply Rle_trans; [apply Rmin_r|apply Rmin_r]).
  assert (Lt : forall dd, 0 < dd -> t <= dd / (2 * Rabs sgn) -> Rabs (sgn * t) < dd).
  { intros dd Hdd Ht. rewrite Rabs_mult, (Rabs_pos_eq t) by lra. apply (Rmult_le_compat_l (Rabs sgn)) in Ht; [|lra].
    replace (Rabs sgn * (dd / (2 * Rabs sgn))) with (dd / 2) in Ht by (field; lra). lra. }
  assert (N0 : sgn * t <> 0) by (apply Rmult_integral_contrapositive; split; lra).
  pose proof (H1 (sgn * t) N0 (Lt d1 ltac:(lra) T2)) as A. pose proof (H2 (sgn * t) N0 (Lt d2 ltac:(lra) T3)) as B.
  assert (E1 : f (x + sgn * t) = g (x + sgn * t)) by (apply E; lra).
  assert (E2 : f x = g x) by (pose proof (E 0 ltac:(lra)) as Q; rewrite Rmult_0_r, Rplus_0_r in Q; exact Q).
  rewrite E1, E2 in A. set (q := (g (x + sgn * t) - g x) / (sgn * t)) in *.
  assert (C : Rabs (d - d') <= Rabs (q - d') + Rabs (q - d)).
  { replace (d - d') with ((q - d') + - (q - d)) by ring. eapply Rle_trans; [apply Rabs_triang|]. rewrite Rabs_Ropp. lra. }
  lra.
Qed.

Lemma lim_glue f g h x d delta : 0 < delta -> (forall t, x - delta < t <= x -> f t = g t) -> (forall t, x <= t < x + delta -> f t = h t) ->
  derivable_pt_lim g x d -> derivable_pt_lim h x d -> derivable_pt_lim f x d.
Proof.
  intros Hd Eg Eh Dg Dh e He. destruct (Dg e He) as (d1 & H1). destruct (Dh e He) as (d2 & H2). pose proof (cond_pos d1). pose proof (cond_pos d2).
  assert (P : 0 < Rmin delta (Rmin d1 d2)) by (repeat apply Rmin_glb_lt; auto).
  exists (mkposreal _ P). intros t Ht Lt. cbn in Lt.
  assert (L1 : Rabs t < delta) by (eapply Rlt_le_trans; [exact Lt|apply Rmin_l]).
  assert (L2 : Rabs t < d1) by (eapply Rlt_le_trans; [exact Lt|eapply Rle_trans; [apply Rmin_r|apply Rmin_l]]).
  assert (L3 : Rabs t < d2) by (eapply Rlt_le_trans; [exact Lt|eapply Rle_trans; [apply Rmin_r|apply Rmin_r]]).
  apply Rabs_def2 in L1. destruct (Rle_or_lt t 0) as [C|C].
  - rewrite (Eg (x + t)), (Eg x) by lra. now apply H1.
  - rewrite (Eh (x + t)), (Eh x) by lra. now apply H2.
Qed.
Lemma lim_local f g x d delta : 0 < delta -> (forall t, x - delta < t < x + delta -> f t = g t) -> derivable_pt_lim g x d -> derivable_pt_lim f x d.
Proof. intros Hd E D. apply (lim_glue f g g x d delta); auto; intros; apply E; lra. Qed.

Lemma lim_affine P a b x d : derivable_pt_lim P (a * x + b) d -> derivable_pt_lim (fun t => P (a * t + b)) x (a * d).
Proof.
  intros D. rewrite Rmult_comm. apply (derivable_pt_lim_comp (fun t => a * t + b) P); [|exact D].
  apply (derivable_affine a b). reflexivity.
Qed.

Lemma poly_derivable n P x : poly_lt n P -> exists d, derivable_pt_lim P x d.
Proof.
  intros (c & E). assert (Q : exists d, derivable_pt_lim (fun x => rsum n (fun k => c k * x ^ k)) x d).
  { clear E. induction n as [|n (d & D)]; cbn [rsum]; [exists 0; apply derivable_pt_lim_const|].
    exists (d + c n * (INR n * x ^ pred n)). apply (derivable_pt_lim_plus (fun x => rsum n (fun k => c k * x ^ k)) (fun x => c n * x ^ n)); [exact D|].
    apply (derivable_pt_lim_scal (fun x => x ^ n)). apply derivable_pt_lim_pow. }
  destruct Q as (d & D). exists d. apply (lim_local P _ x d 1 ltac:(lra)) with (2 := D). intros; apply E.
Qed.

(** ** One link *)
Lemma along_eq l v o i t : held l -> sum_class (pw_cls l) -> (o < pw_out l)%nat -> (i < pw_in l)%nat ->
  along l v o i t = link l o i t + (layer_out l (set_entry v i 0) o - link l o i 0).
Proof.
  intros H Hc Ho Hi. unfold along. rewrite !layer_out_sum by auto.
  assert (Q : forall t, rsum (pw_in l) (fun i0 => link l o i0 (set_entry v i t i0)) = (if Nat.eqb i i then link l o i t else 0) + rsum (pw_in l) (fun i0 => if Nat.eqb i0 i then 0 else link l o i0 (v i0))).
  { intros z. rewrite <- (rsum_single (pw_in l) i (fun j => if Nat.eqb j i then link l o i z else 0)) at 1; auto.
    - rewrite <- rsum_plus. apply rsum_ext. intros j Hj. unfold set_entry. destruct (Nat.eqb_spec j i) as [->|N]; ring.
    - intros j _ N. destruct (Nat.eqb_spec j i); [contradiction|reflexivity]. }
  rewrite !Q, Nat.eqb_refl. ring.
Qed.

Lemma along_lim l v o i x d : held l -> sum_class (pw_cls l) -> (o < pw_out l)%nat -> (i < pw_in l)%nat ->
  (derivable_pt_lim (along l v o i) x d <-> derivable_pt_lim (link l o i) x d).
Proof.
  intros H Hc Ho Hi. set (c := layer_out l (set_entry v i 0) o - link l o i 0).
  assert (E : forall t, along l v o i t = link l o i t + c) by (intros; now apply along_eq). split; intros D.
  - apply (lim_local _ (fun t => along l v o i t + - c) x d 1 ltac:(lra)); [intros t _; rewrite E; ring|].
    replace d with (d + 0) by ring. apply (derivable_pt_lim_plus (along l v o i) (fun _ => - c)); [exact D|apply derivable_pt_lim_const].
  - apply (lim_local _ (fun t => link l o i t + c) x d 1 ltac:(lra)); [intros t _; apply E|].
    replace d with (d + 0) by ring. apply (derivable_pt_lim_plus (link l o i) (fun _ => c)); [exact D|apply derivable_pt_lim_const].
Qed.

Lemma local_affine S s t : seg_local S s t = INR S * t + (- INR S * knot S s - 1).
Proof. unfold seg_local. ring. Qed.

Lemma inside_near S s x : inside S s x -> exists delta, 0 < delta /\ forall t, x - delta < t < x + delta -> in_segment S s t.
Proof.
  intros (Hs & A & B).
  set (d1 := if Nat.eq_dec s 0 then 1 else x - knot S s). set (d2 := if Nat.eq_dec S (Datatypes.S s) then 1 else knot S (Datatypes.S s) - x).
  assert (P1 : 0 < d1) by (unfold d1; destruct (Nat.eq_dec s 0); [lra|destruct A; [contradiction|lra]]).
  assert (P2 : 0 < d2) by (unfold d2; destruct (Nat.eq_dec S (Datatypes.S s)); [lra|destruct B; [contradiction|lra]]).
  exists (Rmin d1 d2). split; [now apply Rmin_glb_lt|]. intros t Ht. pose proof (Rmin_l d1 d2). pose proof (Rmin_r d1 d2).
  split; [exact Hs|]. unfold d1, d2 in *. split; [destruct (Nat.eq_dec s 0)|destruct (Nat.eq_dec S (Datatypes.S s))]; auto; right; lra.
Qed.

Lemma link0_lim l o i s P x D : held l -> pw_length l = 2 -> segment_polynomial l o i s P -> inside (pw_segments l) s x ->
  derivable_pt_lim P (seg_local (pw_segments l) s x) D -> derivable_pt_lim (link0 l o i) x (INR (pw_segments l) * D).
Proof.
  intros H HL HP Hin HD. destruct (inside_near _ _ _ Hin) as (delta & D0 & N).
  apply (lim_local _ (fun t => P (INR (pw_segments l) * t + (- INR (pw_segments l) * knot (pw_segments l) s - 1))) x _ delta D0).
  - intros t Ht. rewrite <- local_affine. apply link0_spec; auto.
  - apply lim_affine. rewrite <- local_affine. exact HD.
Qed.

(** ** Inside a segment: the slope of the segment's polynomial times the number of segments *)
Theorem C105_inside : forall l v o i s P D, held l -> pw_length l = 2 -> pw_periodicity l = None -> sum_class (pw_cls l) -> (o < pw_out l)%nat -> (i < pw_in l)%nat ->
  segment_polynomial l o i s P -> inside (pw_segments l) s (v i) -> derivable_pt_lim P (seg_local (pw_segments l) s (v i)) D ->
  derivable_pt_lim (along l v o i) (v i) (INR (pw_segments l) * D).
Proof.
  intros l v o i s P D H HL Hp Hc Ho Hi HP Hin HD. apply along_lim; auto.
  apply (lim_local _ (link0 l o i) _ _ 1 ltac:(lra)); [intros t _; unfold link; now rewrite Hp|]. now apply (link0_lim l o i s P).
Qed.
Print Assumptions C105_inside.

(** So continuous and discontinuous layers are differentiable off the knots, whatever the weights. *)
Theorem C105_differentiable_off_knots : forall l v o i s, held l -> pw_length l = 2 -> pw_periodicity l = None -> sum_class (pw_cls l) -> (o < pw_out l)%nat -> (i < pw_in l)%nat ->
  inside (pw_segments l) s (v i) -> exists d, derivable_pt_lim (along l v o i) (v i) d.
Proof.
  intros l v o i s H HL Hp Hc Ho Hi Hin. pose proof (held_wf l H) as (Hn & _).
  set (w := fun k => at_ (pw_w l) [o; i; weight_pos (pw_cls l) (pw_n l) s k]).
  assert (HP : segment_polynomial l o i s (interp (pw_n l) 2 w)) by (apply interp_interpolates; auto).
  destruct (poly_derivable (pw_n l) _ (seg_local (pw_segments l) s (v i)) (interp_poly (pw_n l) 2 w)) as (D & HD).
  eexists. eapply C105_inside; eauto.
Qed.
Print Assumptions C105_differentiable_off_knots.

(** ** At an inner knot a continuous layer has a kink unless the slopes of both polynomials agree *)
Theorem C105_kink : forall l v o i s P Q D E, held l -> pw_length l = 2 -> pw_periodicity l = None -> pw_cls l = PiecewisePolynomial -> (o < pw_out l)%nat -> (i < pw_in l)%nat ->
  (s + 1 < pw_segments l)%nat -> segment_polynomial l o i s P -> segment_polynomial l o i (s + 1) Q ->
  derivable_pt_lim P 1 D -> derivable_pt_lim Q (-1) E -> v i = knot (pw_segments l) (s + 1) ->
  ((exists d, derivable_pt_lim (along l v o i) (v i) d) <-> D = E) /\
  (D = E -> derivable_pt_lim (along l v o i) (v i) (INR (pw_segments l) * D)).
Proof.
  intros l v o i s P Q D E H HL Hp Hc Ho Hi Hs HP HQ HD HE Hv. pose proof (held_wf l H) as (Hn & HS & _). assert (PS := INR_pos _ HS).
  assert (Hsum : sum_class (pw_cls l)) by (rewrite Hc; now left).
  replace (s + 1)%nat with (S s) in * by lia. set (Sg := pw_segments l) in *. set (x := knot Sg (S s)) in *.
  set (g := fun t => P (INR Sg * t + (- INR Sg * knot Sg s - 1))). set (h := fun t => Q (INR Sg * t + (- INR Sg * knot Sg (S s) - 1))).
  assert (K : knot Sg s < x) by (apply knot_lt; auto). assert (K' : x < knot Sg (S (S s))) by (apply knot_lt; auto).
  assert (Lx : INR Sg * x + (- INR Sg * knot Sg s - 1) = 1). { unfold x. rewrite knot_succ by auto. field. lra. }
  assert (Rx : INR Sg * x + (- INR Sg * knot Sg (S s) - 1) = -1) by (unfold x; ring).
  assert (Dg : derivable_pt_lim g x (INR Sg * D)) by (apply lim_affine; now rewrite Lx).
  assert (Dh : derivable_pt_lim h x (INR Sg * E)) by (apply lim_affine; now rewrite Rx).
  assert (Eh : forall t, x <= t < knot Sg (S (S s)) -> link l o i t = h t).
  { intros t Ht. unfold link. rewrite Hp. cbn [apply_periodicity]. unfold h. rewrite <- local_affine. apply link0_spec; auto. fold Sg. repeat split; [lia|right; unfold x in *; lra|right; unfold x in *; lra]. }
  assert (Eg : forall t, knot Sg s <= t <= x -> link l o i t = g t).
  { intros t Ht. destruct (Rle_lt_or_eq_dec t x ltac:(lra)) as [L| ->].
    - unfold link. rewrite Hp. cbn [apply_periodicity]. unfold g. rewrite <- local_affine. apply link0_spec; auto. fold Sg. repeat split; [lia|right; unfold x in *; lra|right; unfold x in *; lra].
    - rewrite Eh by lra. unfold g, h. rewrite Lx, Rx.
      assert (Same : at_ (pw_w l) [o; i; weight_pos (pw_cls l) (pw_n l) s (pw_n l - 1)] = at_ (pw_w l) [o; i; weight_pos (pw_cls l) (pw_n l) (S s) 0]) by (rewrite Hc; cbn [weight_pos]; replace (S s * (pw_n l - 1) + 0)%nat with (s * (pw_n l - 1) + (pw_n l - 1))%nat by (cbn [Nat.mul]; lia); reflexivity).
      destruct (Nat.eq_dec (pw_n l) 1) as [N1|N1].
      + destruct HP as ((c & HP1) & HP2). destruct HQ as ((c' & HQ1) & HQ2). rewrite N1 in *. specialize (HP2 0%nat ltac:(lia)). specialize (HQ2 0%nat ltac:(lia)).
        cbn in Same. rewrite HP1, HQ1. rewrite HP1 in HP2. rewrite HQ1 in HQ2. cbn [rsum pow] in *. rewrite Hc in *. cbn in HP2, HQ2, Same. lra.
      + destruct HP as (_ & HP). destruct HQ as (_ & HQ). specialize (HP (pw_n l - 1)%nat ltac:(lia)). specialize (HQ 0%nat ltac:(lia)).
        rewrite node_last in HP by lia. rewrite node_first in HQ by lia. congruence. }
  assert (Glue : D = E -> derivable_pt_lim (along l v o i) (v i) (INR Sg * D)).
  { intros ->. apply along_lim; auto. rewrite Hv. apply (lim_glue _ g h x _ (Rmin (x - knot Sg s) (knot Sg (S (S s)) - x))); auto.
    - apply Rmin_glb_lt; lra.
    - intros t Ht. pose proof (Rmin_l (x - knot Sg s) (knot Sg (S (S s)) - x)). apply Eg. lra.
    - intros t Ht. pose proof (Rmin_r (x - knot Sg s) (knot Sg (S (S s)) - x)). apply Eh. lra. }
  split; [|exact Glue]. split; [|intros Q'; eexists; exact (Glue Q')].
  intros (d & Hd). apply along_lim in Hd; auto. rewrite Hv in Hd.
  assert (A : d = INR Sg * D).
  { apply (lim_unique_side (-1) (link l o i) g x d _ (x - knot Sg s) ltac:(intros Z; lra) ltac:(lra)); auto. intros t Ht. apply Eg. lra. }
  assert (B : d = INR Sg * E).
  { apply (lim_unique_side 1 (link l o i) h x d _ (knot Sg (S (S s)) - x) ltac:(intros Z; lra) ltac:(lra)); auto. intros t Ht. apply Eh. lra. }
  apply (Rmult_eq_reg_l (INR Sg)); lra.
Qed.
Print Assumptions C105_kink.

(** ** Two nodes per segment: the derivative is the difference of neighbouring weights times half the number of segments *)
Lemma linear_polynomial l o i s : pw_n l = 2%nat -> segment_polynomial l o i s (fun z =>
  (at_ (pw_w l) [o; i; weight_pos (pw_cls l) 2 s 0] + at_ (pw_w l) [o; i; weight_pos (pw_cls l) 2 s 1]) / 2 +
  (at_ (pw_w l) [o; i; weight_pos (pw_cls l) 2 s 1] - at_ (pw_w l) [o; i; weight_pos (pw_cls l) 2 s 0]) / 2 * z).
Proof.
  intros Hn. unfold segment_polynomial. rewrite Hn. set (a := at_ (pw_w l) [o; i; weight_pos (pw_cls l) 2 s 0]). set (b := at_ (pw_w l) [o; i; weight_pos (pw_cls l) 2 s 1]). split.
  - exists (fun k => if Nat.eqb k 0 then (a + b) / 2 else (b - a) / 2). intros x. cbn. ring.
  - intros k Hk. assert (L0 : lobatto 2 0 = -1) by (apply (node_first 2); lia). assert (L1 : lobatto 2 1 = 1) by (apply (node_last 2); lia).
    destruct k as [|[|k]]; [rewrite L0; fold a; lra|rewrite L1; fold b; lra|lia].
Qed.
Theorem C105_two_nodes : forall l v o i s, held l -> pw_n l = 2%nat -> pw_length l = 2 -> pw_periodicity l = None -> sum_class (pw_cls l) -> (o < pw_out l)%nat -> (i < pw_in l)%nat ->
  inside (pw_segments l) s (v i) ->
  derivable_pt_lim (along l v o i) (v i)
    (INR (pw_segments l) * ((at_ (pw_w l) [o; i; weight_pos (pw_cls l) 2 s 1] - at_ (pw_w l) [o; i; weight_pos (pw_cls l) 2 s 0]) / 2)).
Proof.
  intros l v o i s H Hn HL Hp Hc Ho Hi Hin. eapply C105_inside; eauto; [now apply linear_polynomial|].
  set (a := at_ (pw_w l) [o; i; weight_pos (pw_cls l) 2 s 0]). set (b := at_ (pw_w l) [o; i; weight_pos (pw_cls l) 2 s 1]). apply (derivable_affine _ ((a + b) / 2)). intros t. ring.
Qed.
Print Assumptions C105_two_nodes.

(** ** The derivative is bounded by the weights *)
Theorem C105_bounded : forall l v o i s P D W, held l -> pw_length l = 2 -> (o < pw_out l)%nat -> (i < pw_in l)%nat ->
  segment_polynomial l o i s P -> (s < pw_segments l)%nat -> -1 < seg_local (pw_segments l) s (v i) < 1 -> derivable_pt_lim P (seg_local (pw_segments l) s (v i)) D ->
  (forall i p, valid (shape (pw_w l)) [o; i; p] -> Rabs (at_ (pw_w l) [o; i; p]) <= W) ->
  Rabs (INR (pw_segments l) * D) <= INR (pw_segments l) * (W * steepness (pw_n l)).
Proof.
  intros l v o i s P D W H HL Ho Hi HP Hs Hx HD HW. pose proof (held_wf l H) as (Hn & HS & _). assert (PS := INR_pos _ HS).
  rewrite Rabs_mult, (Rabs_pos_eq (INR _)) by lra. apply Rmult_le_compat_l; [lra|].
  set (x := seg_local (pw_segments l) s (v i)) in *. set (L := W * steepness (pw_n l)).
  destruct (Rle_or_lt (Rabs D) L) as [|N]; [assumption|exfalso].
  destruct (HD (Rabs D - L) ltac:(lra)) as (delta & Hd). pose proof (cond_pos delta).
  set (t := Rmin (delta / 2) ((1 - x) / 2)). assert (T0 : 0 < t) by (apply Rmin_glb_lt; lra).
  assert (T1 : t <= delta / 2) by apply Rmin_l. assert (T2 : t <= (1 - x) / 2) by apply Rmin_r.
  specialize (Hd t ltac:(lra) ltac:(rewrite Rabs_pos_eq; lra)).
  assert (B : Rabs (P (x + t) - P x) <= L * t).
  { rewrite <- !(interpolates_interp (pw_n l) _ P Hn HP). eapply Rle_trans; [apply interp_lip; auto; try lra|].
    - intros k Hk. apply HW. now apply wf_weight.
    - right. unfold L. f_equal. replace (x + t - x) with t by ring. apply Rabs_pos_eq. lra. }
  assert (Q : Rabs ((P (x + t) - P x) / t) <= L).
  { unfold Rdiv. rewrite Rabs_mult, (Rabs_pos_eq (/ t)) by (left; now apply Rinv_0_lt_compat). apply (Rmult_le_reg_r t); [auto|]. rewrite Rmult_assoc, Rinv_l by lra. lra. }
  set (q := (P (x + t) - P x) / t) in *. assert (Rabs D <= Rabs q + Rabs (q - D)); [|lra].
  replace D with (q + - (q - D)) at 1 by ring. eapply Rle_trans; [apply Rabs_triang|]. rewrite Rabs_Ropp. lra.
Qed.
Print Assumptions C105_bounded.

(** ** Periodic layers: the derivative changes its sign with every period *)
Theorem C105_periodic : forall l v o i s P D p (k : Z), held l -> pw_length l = 2 -> pw_periodicity l = Some p -> 0 < p -> sum_class (pw_cls l) -> (o < pw_out l)%nat -> (i < pw_in l)%nat ->
  segment_polynomial l o i s P ->
  (2 * p * IZR k - p / 2 < v i < 2 * p * IZR k + p / 2 -> inside (pw_segments l) s (v i - 2 * p * IZR k) ->
   derivable_pt_lim P (seg_local (pw_segments l) s (v i - 2 * p * IZR k)) D ->
   derivable_pt_lim (along l v o i) (v i) (INR (pw_segments l) * D)) /\
  (2 * p * IZR k + p / 2 < v i < 2 * p * IZR k + 3 * p / 2 -> inside (pw_segments l) s (p - (v i - 2 * p * IZR k)) ->
   derivable_pt_lim P (seg_local (pw_segments l) s (p - (v i - 2 * p * IZR k))) D ->
   derivable_pt_lim (along l v o i) (v i) (- (INR (pw_segments l) * D))).
Proof.
  intros l v o i s P D p k H HL Hp P0 Hc Ho Hi HP. destruct (C13_make_periodic_triangle_wave p P0) as (_ & C2 & C3 & C4 & _).
  split; intros Hr Hin HD; apply along_lim; auto; set (x := v i) in *; pose proof (link0_lim l o i s P _ D H HL HP Hin HD) as L0.
  - set (r := Rmin (x - (2 * p * IZR k - p / 2)) (2 * p * IZR k + p / 2 - x)).
    apply (lim_local _ (fun t => link0 l o i (1 * t + - (2 * p * IZR k))) x _ r).
    + apply Rmin_glb_lt; lra.
    + intros t Ht. pose proof (Rmin_l (x - (2 * p * IZR k - p / 2)) (2 * p * IZR k + p / 2 - x)). pose proof (Rmin_r (x - (2 * p * IZR k - p / 2)) (2 * p * IZR k + p / 2 - x)). unfold r in Ht.
      unfold link. rewrite Hp. cbn [apply_periodicity]. f_equal. rewrite <- (C2 (1 * t + - (2 * p * IZR k))) by lra.
      rewrite <- (C3 (1 * t + - (2 * p * IZR k)) k). f_equal. ring.
    + replace (INR (pw_segments l) * D) with (1 * (INR (pw_segments l) * D)) by ring. apply lim_affine. replace (1 * x + - (2 * p * IZR k)) with (x - 2 * p * IZR k) by ring. exact L0.
  - set (r := Rmin (x - (2 * p * IZR k + p / 2)) (2 * p * IZR k + 3 * p / 2 - x)).
    apply (lim_local _ (fun t => link0 l o i (-1 * t + (p + 2 * p * IZR k))) x _ r).
    + apply Rmin_glb_lt; lra.
    + intros t Ht. pose proof (Rmin_l (x - (2 * p * IZR k + p / 2)) (2 * p * IZR k + 3 * p / 2 - x)). pose proof (Rmin_r (x - (2 * p * IZR k + p / 2)) (2 * p * IZR k + 3 * p / 2 - x)). unfold r in Ht.
      unfold link. rewrite Hp. cbn [apply_periodicity]. f_equal. rewrite <- (C2 (-1 * t + (p + 2 * p * IZR k))) by lra.
      rewrite <- (C4 t). rewrite <- (C3 (p - t) k). f_equal. ring.
    + replace (- (INR (pw_segments l) * D)) with (-1 * (INR (pw_segments l) * D)) by ring. apply lim_affine. replace (-1 * x + (p + 2 * p * IZR k)) with (p - (x - 2 * p * IZR k)) by ring. exact L0.
Qed.
Print Assumptions C105_periodic.

(** At a turning point the derivative is 0 if there is one, so a layer whose polynomial is not flat there has a kink. *)
Theorem C105_turning_point : forall l v o i p d, held l -> pw_periodicity l = Some p -> 0 < p -> sum_class (pw_cls l) -> (o < pw_out l)%nat -> (i < pw_in l)%nat ->
  v i = p / 2 -> derivable_pt_lim (along l v o i) (v i) d -> d = 0.
Proof.
  intros l v o i p d H Hp P0 Hc Ho Hi Hv Hd. apply along_lim in Hd; auto. rewrite Hv in Hd.
  destruct (C13_make_periodic_triangle_wave p P0) as (_ & _ & _ & C4 & _).
  assert (M : derivable_pt_lim (fun t => link l o i (-1 * t + p)) (p / 2) (-1 * d)) by (apply lim_affine; replace (-1 * (p / 2) + p) with (p / 2) by lra; exact Hd).
  assert (Q : -1 * d = d); [|lra]. apply (lim_unique_side 1 (fun t => link l o i (-1 * t + p)) (link l o i) (p / 2) _ _ 1 ltac:(intros Z; lra) ltac:(lra)); auto.
  intros t _. unfold link. rewrite Hp. cbn [apply_periodicity]. rewrite <- (C4 (p / 2 + 1 * t)). f_equal. f_equal. lra.
Qed.
Print Assumptions C105_turning_point.

(** ** Polynomial layers are differentiable in every input, everywhere *)
Theorem C105_polynomial_smooth : forall n I O len mag draw w v o i, (1 <= n)%nat -> shape w = [O; I; n] -> (o < O)%nat -> (i < I)%nat ->
  exists d, derivable_pt_lim (fun t => value_at (Function_forward (with_fw (Polynomial n I O len mag None draw) w) (one_sample I (set_entry v i t))) [0; o]%nat) (v i) d.
Proof.
  intros n I O len mag draw w v o i Hn Hw Ho Hi.
  assert (V : forall t, value_at (Function_forward (with_fw (Polynomial n I O len mag None draw) w) (one_sample I (set_entry v i t))) [0; o]%nat
     = rsum I (fun j => interp n len (fun k => at_ w [o; j; k]) (set_entry v i t j))).
  { intros t. destruct (function_spec n (lb_basis (get_lagrange_basis n len)) None w (one_sample I (set_entry v i t)) 1 I O Hn Hw eq_refl) as (y & E & S & V).
    unfold with_fw, Polynomial. cbn [f_n f_basis f_periodicity]. rewrite E. cbn [value_at]. rewrite V by lia. reflexivity. }
  assert (Q : exists d, derivable_pt_lim (fun t => rsum I (fun j => interp n len (fun k => at_ w [o; j; k]) (set_entry v i t j))) (v i) d).
  { clear V Hi Hw. induction I as [|I (d & D)]; cbn [rsum]; [exists 0; apply derivable_pt_lim_const|].
    destruct (poly_derivable n (interp n len (fun k => at_ w [o; I; k])) (v i) (interp_poly n len _)) as (e & E).
    destruct (Nat.eq_dec I i) as [->|N].
    - exists (d + e). apply (derivable_pt_lim_plus _ (fun t => interp n len (fun k => at_ w [o; i; k]) (set_entry v i t i))); [exact D|].
      apply (lim_local _ (interp n len (fun k => at_ w [o; i; k])) _ _ 1 ltac:(lra)); [|exact E]. intros t _. unfold set_entry. now rewrite Nat.eqb_refl.
    - exists (d + 0). apply (derivable_pt_lim_plus _ (fun t => interp n len (fun k => at_ w [o; I; k]) (set_entry v i t I))); [exact D|].
      apply (lim_local _ (fun _ => interp n len (fun k => at_ w [o; I; k]) (v I)) _ _ 1 ltac:(lra)); [|apply derivable_pt_lim_const]. intros t _. unfold set_entry. destruct (Nat.eqb_spec I i); [contradiction|reflexivity]. }
  destruct Q as (d & D). exists d. apply (lim_local _ _ _ _ 1 ltac:(lra)) with (2 := D). intros t _. apply V.
Qed.
Print Assumptions C105_polynomial_smooth.

(** ** Concrete cases *)
(** Two segments, weights 0, 1, 0: a roof with slope 1 on the left and -1 on the right, not differentiable at 0. *)
Definition roof : piecewise :=
  let l := new_piecewise PiecewisePolynomial 2 1 1 2 2 1 None (fun _ _ => 0) in
  with_w l (mkT (shape (pw_w l)) (fun ix => if Nat.eqb (nth 2 ix 0%nat) 1 then 1 else 0)).
Lemma roof_held : held roof.
Proof. apply with_w_held; [apply new_held; lia|reflexivity]. Qed.
Example C105_case : derivable_pt_lim (along roof (fun _ => 1/2) 0 0) (1/2) (-1) /\
  ~ exists d, derivable_pt_lim (along roof (fun _ => 0) 0 0) 0 d.
Proof.
  split.
  - pose proof (C105_two_nodes roof (fun _ => 1/2) 0 0 1 roof_held eq_refl eq_refl eq_refl ltac:(now left) ltac:(cbn; lia) ltac:(cbn; lia)) as Q.
    replace (-1) with (INR (pw_segments roof) * ((at_ (pw_w roof) [0; 0; weight_pos (pw_cls roof) 2 1 1]%nat - at_ (pw_w roof) [0; 0; weight_pos (pw_cls roof) 2 1 0]%nat) / 2)) by (cbn; lra).
    apply Q. unfold inside, knot. cbn. repeat split; [lia|right; lra|left; reflexivity].
  - intros X. set (P0 := linear_polynomial roof 0 0 0 eq_refl). set (P1 := linear_polynomial roof 0 0 1 eq_refl).
    destruct (C105_kink roof (fun _ => 0) 0 0 0 _ _ (1/2) (-1/2) roof_held eq_refl eq_refl eq_refl ltac:(cbn; lia) ltac:(cbn; lia) ltac:(cbn; lia) P0 P1) as ((K & _) & _).
    + apply (derivable_affine _ (1/2)). intros t. cbn. lra.
    + apply (derivable_affine _ (1/2)). intros t. cbn. lra.
    + unfold knot. cbn. lra.
    + specialize (K X). lra.
Qed.

(** The same roof with period 2: at 3/2 the wave is folded back to 1/2, where the slope is -1, so the derivative is 1; and at 1 it can only be 0. *)
Definition roof_p : piecewise :=
  let l := new_piecewise PiecewisePolynomial 2 1 1 2 2 1 (Some 2) (fun _ _ => 0) in
  with_w l (mkT (shape (pw_w l)) (fun ix => if Nat.eqb (nth 2 ix 0%nat) 1 then 1 else 0)).
Example C105_periodic_case : derivable_pt_lim (along roof_p (fun _ => 3/2) 0 0) (3/2) 1 /\ ~ exists d, derivable_pt_lim (along roof_p (fun _ => 1) 0 0) 1 d /\ d <> 0.
Proof.
  assert (Hh : held roof_p) by (apply with_w_held; [apply new_held; lia|reflexivity]). split.
  - destruct (C105_periodic roof_p (fun _ => 3/2) 0 0 1 _ (-1/2) 2 0%Z Hh eq_refl eq_refl ltac:(lra) ltac:(now left) ltac:(cbn; lia) ltac:(cbn; lia) (linear_polynomial roof_p 0 0 1 eq_refl)) as (_ & Q).
    replace 1 with (- (INR (pw_segments roof_p) * (-1/2))) by (cbn; lra). apply Q.
    + cbn. lra.
    + unfold inside, knot. cbn. repeat split; [lia|right; lra|left; reflexivity].
    + apply (derivable_affine _ (1/2)). intros t. cbn. lra.
  - intros (d & Hd & N). apply N. apply (C105_turning_point roof_p (fun _ => 1) 0 0 2 d Hh eq_refl); auto; try (cbn; lia); try lra. now left.
Qed.
