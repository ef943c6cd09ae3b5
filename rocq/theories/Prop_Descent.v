(** * Gradient descent on one layer converges to the best weights (C110). *)
From Coq Require Import String.
From Coq Require Import Reals ZArith List Lia Lra Psatz Bool.
From Verif Require Import Spec Tensor Utils LagrangePolynomial Basis PolynomialLayers Expand Convolution Modules
  Observe ObserveConv ObserveModules SumFacts TensorFacts LagrangeFacts LayerFacts SegmentFacts LayerProofs LebesgueFacts
  ConvFacts Prop_Basis Prop_Layers Prop_Bounds Prop_Step Prop_Convex Prop_Product Prop_Conv Prop_ConvAnalysis.
Import ListNotations.
Local Open Scope R_scope.

(** ** Vocabulary *)
(** Inner product and squared length of tensors of shape [s], over their entries. *)
Definition dot (s : list nat) (g d : tensor R) : R := rsum (prodn s) (fun k => at_ g (unravel s k) * at_ d (unravel s k)).
Definition sqnorm (s : list nat) (w : tensor R) : R := dot s w w.
Definition sqdist (s : list nat) (w w' : tensor R) : R := rsum (prodn s) (fun k => (at_ w (unravel s k) - at_ w' (unravel s k)) ^ 2).
(** The loss the regression module computes for the outputs [f w] and the targets [y]. *)
Definition loss_of (f : tensor R -> res (tensor R)) (y w : tensor R) : R :=
  match regression_eval_step (f w) y ""%string with Ok (Some v, _) => v | _ => 0 end.
(** [g] is the gradient of [F] at [w]: it gives the derivative in every direction. *)
Definition is_gradient (F : tensor R -> R) (s : list nat) (w g : tensor R) : Prop :=
  shape g = s /\ forall d, shape d = s -> derivable_pt_lim (fun t => F (blend 1 w t d)) 0 (dot s g d).
(** Gradient descent with learning rate [eta]: w <- w - eta * gradient (torch.optim.SGD without momentum, on the whole data set). *)
Definition descent (F : tensor R -> R) (s : list nat) (eta : R) (ws : nat -> tensor R) : Prop :=
  shape (ws O) = s /\ forall t, exists g, is_gradient F s (ws t) g /\ ws (S t) = blend 1 (ws t) (- eta) g.
(** No output is larger than sqrt L times the length of the weights. *)
Definition gain (Sw Sy : list nat) (f : tensor R -> res (tensor R)) (L : R) : Prop :=
  forall w y, shape w = Sw -> f w = Ok y -> forall ix, valid Sy ix -> (at_ y ix) ^ 2 <= L * sqnorm Sw w.

Lemma sqnorm_eq s w : sqnorm s w = rsum (prodn s) (fun k => at_ w (unravel s k) ^ 2).
Proof. unfold sqnorm, dot. apply rsum_ext. intros. ring. Qed.
Lemma sqnorm_pos s w : 0 <= sqnorm s w.
Proof. rewrite sqnorm_eq. apply rsum_nonneg. intros. apply pow2_ge_0. Qed.

(** ** Least squares with outputs linear in the weights *)
Section LeastSquares.
  Variables (Sw Sy : list nat) (f : tensor R -> res (tensor R)) (L : R) (y : tensor R).
  Hypotheses (Lin : linear_in_weights Sw Sy f) (Gn : gain Sw Sy f L) (Ny : numel y = prodn Sy) (Hn : (1 <= prodn Sy)%nat).
  Let n := prodn Sy.
  Definition out (w : tensor R) (i : nat) : R := match f w with Ok v => entry_at v i | Err _ => 0 end.
  Let r (w : tensor R) (i : nat) : R := out w i - entry_at y i.

  Lemma n_pos : 0 < INR n.
  Proof. apply lt_0_INR. unfold n. lia. Qed.
  Lemma out_blend a w b w' i : shape w = Sw -> shape w' = Sw -> (i < n)%nat -> out (blend a w b w') i = a * out w i + b * out w' i.
  Proof.
    intros Hw Hw' Hi. destruct Lin as (Tot & Li). unfold out. destruct (Tot w Hw) as (v & Ev & Sv). destruct (Tot w' Hw') as (v' & Ev' & Sv').
    destruct (Tot (blend a w b w') Hw) as (z & Ez & Sz). rewrite Ev, Ev', Ez. unfold entry_at. rewrite Sv, Sv', Sz.
    apply (Li w w' a b v v' z Hw Hw' Ev Ev' Ez). now apply unravel_valid.
  Qed.
  Lemma out_gain w i : shape w = Sw -> (i < n)%nat -> out w i ^ 2 <= L * sqnorm Sw w.
  Proof.
    intros Hw Hi. destruct Lin as (Tot & _). unfold out. destruct (Tot w Hw) as (v & Ev & Sv). rewrite Ev. unfold entry_at. rewrite Sv.
    apply (Gn w v Hw Ev). now apply unravel_valid.
  Qed.
  Lemma loss_eq w : shape w = Sw -> loss_of f y w = rsum n (fun i => r w i ^ 2) / INR n.
  Proof.
    intros Hw. destruct Lin as (Tot & _). destruct (Tot w Hw) as (v & Ev & Sv). unfold loss_of, r, out. rewrite Ev.
    destruct (C73_regression_loss v y ""%string n) as (l & E & El & _); [unfold numel; rewrite Sv; reflexivity|exact Ny|exact Hn|]. rewrite E. exact El.
  Qed.
  Lemma loss_expand w t d : shape w = Sw -> shape d = Sw ->
    loss_of f y (blend 1 w t d) = loss_of f y w + (2 / INR n * rsum n (fun i => r w i * out d i)) * t + rsum n (fun i => out d i ^ 2) / INR n * (t * t).
  Proof.
    intros Hw Hd. pose proof n_pos. rewrite !loss_eq by assumption.
    rewrite (rsum_ext n (fun i => r (blend 1 w t d) i ^ 2) (fun i => r w i ^ 2 + (2 * t) * (r w i * out d i) + (t * t) * (out d i ^ 2))).
    - rewrite !rsum_plus, !rsum_scal. field. lra.
    - intros i Hi. unfold r. rewrite out_blend by assumption. ring.
  Qed.
  Lemma loss_deriv w d : shape w = Sw -> shape d = Sw ->
    derivable_pt_lim (fun t => loss_of f y (blend 1 w t d)) 0 (2 / INR n * rsum n (fun i => r w i * out d i)).
  Proof.
    intros Hw Hd. pose proof (fun t => loss_expand w t d Hw Hd) as Q. set (c := 2 / INR n * _) in *. set (q := _ / INR n) in Q. set (l0 := loss_of f y w) in Q.
    assert (D0 : derivable_pt_lim (fun t => l0 + c * t + q * (t * t)) 0 (0 + c * 1 + q * (1 * 0 + 0 * 1))).
    { apply (derivable_pt_lim_plus (fun t => l0 + c * t) (fun t => q * (t * t))).
      - apply (derivable_pt_lim_plus (fun _ => l0) (fun t => c * t)); [apply derivable_pt_lim_const|].
        apply (derivable_pt_lim_scal id). apply derivable_pt_lim_id.
      - apply (derivable_pt_lim_scal (fun t => t * t)). apply (derivable_pt_lim_mult id id); apply derivable_pt_lim_id. }
    replace (0 + c * 1 + q * (1 * 0 + 0 * 1)) with c in D0 by ring.
    intros eps He. destruct (D0 eps He) as (dl & V). exists dl. intros k Hk Hk'. rewrite !Q. now apply V.
  Qed.
  Lemma gradient_dot w g d : shape w = Sw -> shape d = Sw -> is_gradient (loss_of f y) Sw w g -> dot Sw g d = 2 / INR n * rsum n (fun i => r w i * out d i).
  Proof. intros Hw Hd (_ & D). exact (uniqueness_limite _ _ _ _ (D d Hd) (loss_deriv w d Hw Hd)). Qed.

  (** Outputs depend on the entries of the weights only, so they are combinations of the outputs of unit weights. *)
  Lemma out_ext w w' i : shape w = Sw -> shape w' = Sw -> (forall k, (k < prodn Sw)%nat -> at_ w (unravel Sw k) = at_ w' (unravel Sw k)) -> (i < n)%nat -> out w i = out w' i.
  Proof.
    intros Hw Hw' E Hi. pose proof (out_gain (blend 1 w (-1) w') i Hw Hi) as G. rewrite out_blend in G by assumption.
    rewrite sqnorm_eq, rsum_zero, Rmult_0_r in G by (intros k Hk; cbn [blend at_]; rewrite E by exact Hk; ring).
    pose proof (pow2_ge_0 (1 * out w i + -1 * out w' i)). assert (S0 : (1 * out w i + -1 * out w' i) ^ 2 = 0) by lra.
    cbn [pow] in S0. rewrite Rmult_1_r in S0. apply Rmult_integral in S0. lra.
  Qed.
  Definition unit_weights (k : nat) : tensor R := mkT Sw (fun ix => if Nat.eqb (ravel Sw ix) k then 1 else 0).
  Lemma out_units d i : shape d = Sw -> (i < n)%nat -> out d i = rsum (prodn Sw) (fun k => at_ d (unravel Sw k) * out (unit_weights k) i).
  Proof.
    intros Hd Hi. set (part := fun m => mkT Sw (fun ix => if Nat.ltb (ravel Sw ix) m then at_ d ix else 0)).
    assert (P : forall m, (m <= prodn Sw)%nat -> out (part m) i = rsum m (fun k => at_ d (unravel Sw k) * out (unit_weights k) i)).
    { induction m as [|m IH]; intros Hm.
      - cbn [rsum]. transitivity (out (blend 0 d 0 d) i); [|rewrite out_blend by assumption; ring].
        apply out_ext; [reflexivity|exact Hd| |exact Hi]. intros k Hk. cbn [part blend at_]. destruct (Nat.ltb_spec (ravel Sw (unravel Sw k)) 0); [lia|ring].
      - cbn [rsum]. rewrite <- IH by lia. transitivity (out (blend 1 (part m) (at_ d (unravel Sw m)) (unit_weights m)) i).
        + apply out_ext; [reflexivity|reflexivity| |exact Hi]. intros k Hk. cbn [part blend at_ unit_weights]. rewrite ravel_unravel by exact Hk.
          destruct (Nat.ltb_spec k (S m)); destruct (Nat.ltb_spec k m); destruct (Nat.eqb_spec k m); subst; try lia; ring.
        + rewrite out_blend by (auto; reflexivity). ring. }
    rewrite <- P by lia. apply out_ext; [exact Hd|reflexivity| |exact Hi]. intros k Hk. cbn [part at_]. rewrite ravel_unravel by exact Hk.
    destruct (Nat.ltb_spec k (prodn Sw)); [reflexivity|lia].
  Qed.
  (** The gradient, and the descent it gives. *)
  Definition grad (w : tensor R) : tensor R := mkT Sw (fun ix => 2 / INR n * rsum n (fun i => r w i * out (unit_weights (ravel Sw ix)) i)).
  Lemma grad_ok w : shape w = Sw -> is_gradient (loss_of f y) Sw w (grad w).
  Proof.
    intros Hw. split; [reflexivity|]. intros d Hd.
    replace (dot Sw (grad w) d) with (2 / INR n * rsum n (fun i => r w i * out d i)); [now apply loss_deriv|].
    unfold dot, grad. cbn [at_].
    transitivity (2 / INR n * rsum n (fun i => rsum (prodn Sw) (fun k => r w i * out (unit_weights k) i * at_ d (unravel Sw k)))).
    - f_equal. apply rsum_ext. intros i Hi. rewrite (out_units d i Hd Hi), <- rsum_scal. apply rsum_ext. intros k Hk. ring.
    - rewrite rsum_swap, <- rsum_scal. apply rsum_ext. intros k Hk. rewrite ravel_unravel by exact Hk. rewrite rsum_scal_r. ring.
  Qed.
  Lemma descent_exists eta w : shape w = Sw -> exists ws, ws O = w /\ descent (loss_of f y) Sw eta ws.
  Proof.
    intros Hw. set (ws := fix ws (t : nat) : tensor R := match t with O => w | S t => blend 1 (ws t) (- eta) (grad (ws t)) end).
    exists ws. split; [reflexivity|]. split; [exact Hw|]. assert (Hs : forall t, shape (ws t) = Sw) by (induction t; [exact Hw|exact IHt]).
    intros t. exists (grad (ws t)). split; [now apply grad_ok|reflexivity].
  Qed.

  Lemma step_loss eta w g : shape w = Sw -> is_gradient (loss_of f y) Sw w g ->
    loss_of f y (blend 1 w (- eta) g) <= loss_of f y w - eta * (1 - eta * L) * sqnorm Sw g.
  Proof.
    intros Hw Hg. pose proof Hg as (Sg & _). pose proof n_pos as Np. rewrite loss_expand by assumption. rewrite <- (gradient_dot w g g Hw Sg Hg). fold (sqnorm Sw g).
    assert (B : rsum n (fun i => out g i ^ 2) / INR n <= L * sqnorm Sw g).
    { apply (Rmult_le_reg_r (INR n)); [exact Np|]. unfold Rdiv. rewrite Rmult_assoc, Rinv_l, Rmult_1_r by lra.
      replace (L * sqnorm Sw g * INR n) with (INR n * (L * sqnorm Sw g)) by ring. rewrite <- rsum_const. apply rsum_le. intros i Hi. now apply out_gain. }
    assert (0 <= eta * eta) by nra. set (q := rsum n _ / INR n) in *. set (sq := sqnorm Sw g) in *. nra.
  Qed.

  Lemma gradient_below w g w' : shape w = Sw -> shape w' = Sw -> is_gradient (loss_of f y) Sw w g ->
    loss_of f y w + dot Sw g (blend 1 w' (-1) w) <= loss_of f y w'.
  Proof.
    intros Hw Hw' Hg. pose proof n_pos as Np. set (d := blend 1 w' (-1) w). assert (Hd : shape d = Sw) by exact Hw'.
    assert (E : loss_of f y w' = loss_of f y (blend 1 w 1 d)).
    { rewrite !loss_eq by assumption. f_equal. apply rsum_ext. intros i Hi. unfold r, d. rewrite !out_blend by assumption. ring. }
    rewrite E, loss_expand by assumption. rewrite <- (gradient_dot w g d Hw Hd Hg).
    assert (0 <= rsum n (fun i => out d i ^ 2) / INR n); [|lra].
    apply Rmult_le_pos; [apply rsum_nonneg; intros; apply pow2_ge_0|]. apply Rlt_le. now apply Rinv_0_lt_compat.
  Qed.

  Lemma step_dist eta w g w' : sqdist Sw (blend 1 w (- eta) g) w' = sqdist Sw w w' + 2 * eta * dot Sw g (blend 1 w' (-1) w) + eta * eta * sqnorm Sw g.
  Proof.
    unfold sqdist, sqnorm, dot. cbn [blend at_]. rewrite <- !rsum_scal, <- !rsum_plus. apply rsum_ext. intros k Hk. ring.
  Qed.
End LeastSquares.

(** ** C110, for every function linear in its weights *)
(** One step with learning rate below 1/L decreases the loss, by an amount proportional to the squared gradient. *)
Theorem C110_step : forall Sw Sy f L y eta w g, linear_in_weights Sw Sy f -> gain Sw Sy f L -> numel y = prodn Sy -> (1 <= prodn Sy)%nat ->
  shape w = Sw -> is_gradient (loss_of f y) Sw w g ->
  loss_of f y (blend 1 w (- eta) g) <= loss_of f y w - eta * (1 - eta * L) * sqnorm Sw g.
Proof. intros Sw Sy f L y eta w g Lin Gn Ny Hn Hw Hg. exact (step_loss Sw Sy f L y Lin Gn Ny Hn eta w g Hw Hg). Qed.
Print Assumptions C110_step.

(** From any initial weights the loss never increases and comes within |w0 - w|^2 / (2 eta T) of that of any other weights [w], the best ones included, in T steps. *)
Theorem C110_converges : forall Sw Sy f L y eta ws, linear_in_weights Sw Sy f -> gain Sw Sy f L -> numel y = prodn Sy -> (1 <= prodn Sy)%nat ->
  0 < eta -> 2 * eta * L <= 1 -> descent (loss_of f y) Sw eta ws ->
  (forall t, loss_of f y (ws (S t)) <= loss_of f y (ws t)) /\
  forall w T, shape w = Sw -> (1 <= T)%nat -> loss_of f y (ws T) <= loss_of f y w + sqdist Sw (ws O) w / (2 * eta * INR T).
Proof.
  intros Sw Sy f L y eta ws Lin Gn Ny Hn E0 EL (H0 & D).
  assert (Hs : forall t, shape (ws t) = Sw) by (induction t as [|t IH]; [exact H0|destruct (D t) as (g & _ & ->); exact IH]).
  assert (Dec : forall t, exists g, is_gradient (loss_of f y) Sw (ws t) g /\ ws (S t) = blend 1 (ws t) (- eta) g /\
     loss_of f y (ws (S t)) <= loss_of f y (ws t) - eta / 2 * sqnorm Sw g).
  { intros t. destruct (D t) as (g & Hg & Et). exists g. split; [exact Hg|]. split; [exact Et|].
    pose proof (C110_step Sw Sy f L y eta (ws t) g Lin Gn Ny Hn (Hs t) Hg) as Q. rewrite <- Et in Q. pose proof (sqnorm_pos Sw g) as P.
    assert (eta / 2 * sqnorm Sw g <= eta * (1 - eta * L) * sqnorm Sw g); [|lra]. apply Rmult_le_compat_r; [exact P|]. nra. }
  assert (Mono : forall t, loss_of f y (ws (S t)) <= loss_of f y (ws t)).
  { intros t. destruct (Dec t) as (g & _ & _ & Q). pose proof (sqnorm_pos Sw g). assert (0 <= eta / 2 * sqnorm Sw g) by (apply Rmult_le_pos; lra). lra. }
  split; [exact Mono|]. intros w T Hw HT.
  assert (Inv : forall t, sqdist Sw (ws t) w + 2 * eta * INR t * (loss_of f y (ws t) - loss_of f y w) <= sqdist Sw (ws O) w).
  { induction t as [|t IH]; [cbn [INR]; lra|]. destruct (Dec t) as (g & Hg & Et & Q).
    pose proof (gradient_below Sw Sy f y Lin Ny Hn (ws t) g w (Hs t) Hw Hg) as C.
    pose proof (step_dist Sw eta (ws t) g w) as SD. rewrite <- Et in SD. rewrite SD, S_INR. specialize (Mono t). pose proof (pos_INR t) as Pt.
    set (l' := loss_of f y (ws (S t))) in *. set (l := loss_of f y (ws t)) in *. set (ls := loss_of f y w) in *. set (sq := sqnorm Sw g) in *. set (dt := dot Sw g _) in *.
    assert (A1 : eta * eta * sq <= 2 * eta * (l - l')) by nra.
    assert (A2 : 2 * eta * dt <= 2 * eta * (ls - l)) by nra.
    assert (A3 : 2 * eta * INR t * (l' - ls) <= 2 * eta * INR t * (l - ls)) by (apply Rmult_le_compat_l; [nra|lra]).
    nra. }
  specialize (Inv T). assert (P : 0 <= sqdist Sw (ws T) w) by (apply rsum_nonneg; intros; apply pow2_ge_0).
  assert (T1 : 1 <= INR T) by (change 1 with (INR 1); now apply le_INR).
  assert (PT : 0 < 2 * eta * INR T) by nra.
  assert (Q : loss_of f y (ws T) - loss_of f y w <= sqdist Sw (ws O) w / (2 * eta * INR T)); [|lra].
  apply (Rmult_le_reg_l (2 * eta * INR T)); [exact PT|]. replace (2 * eta * INR T * (sqdist Sw (ws O) w / (2 * eta * INR T))) with (sqdist Sw (ws O) w) by (field; lra). lra.
Qed.
Print Assumptions C110_converges.

(** Gradients, and with them descents from any weights, exist. *)
Theorem C110_exists : forall Sw Sy f L y eta w, linear_in_weights Sw Sy f -> gain Sw Sy f L -> numel y = prodn Sy -> (1 <= prodn Sy)%nat ->
  shape w = Sw -> exists ws, ws O = w /\ descent (loss_of f y) Sw eta ws.
Proof. intros Sw Sy f L y eta w Lin Gn Ny Hn Hw. exact (descent_exists Sw Sy f L y Lin Gn Ny Hn eta w Hw). Qed.
Print Assumptions C110_exists.

(** ** The squares of the cardinal polynomials sum to at most 2, for every order *)
Lemma cauchy n a b : (rsum n (fun i => a i * b i)) ^ 2 <= rsum n (fun i => a i ^ 2) * rsum n (fun i => b i ^ 2).
Proof.
  set (X := rsum n (fun i => a i ^ 2)). set (Y := rsum n (fun i => b i ^ 2)). set (A := rsum n (fun i => a i * b i)).
  assert (X0 : 0 <= X) by (apply rsum_nonneg; intros; apply pow2_ge_0).
  destruct (Req_dec X 0) as [Z|Z].
  - assert (A0 : A = 0).
    { apply rsum_zero. intros i Hi. assert (a i ^ 2 = 0).
      { pose proof (rsum_ge_term n i (fun i => a i ^ 2) Hi (fun j _ => pow2_ge_0 (a j))) as Q. cbn beta in Q. fold X in Q. pose proof (pow2_ge_0 (a i)). lra. }
      assert (a i = 0) by (cbn [pow] in H; rewrite Rmult_1_r in H; apply Rmult_integral in H; tauto). rewrite H0. ring. }
    rewrite A0, Z. lra.
  - assert (S : rsum n (fun i => (X * b i - A * a i) ^ 2) = X * (X * Y - A ^ 2)).
    { rewrite (rsum_ext n _ (fun i => X * X * (b i ^ 2) + (-2 * X * A) * (a i * b i) + A * A * (a i ^ 2))) by (intros; ring).
      rewrite !rsum_plus, !rsum_scal. fold X Y A. ring. }
    assert (P : 0 <= X * (X * Y - A ^ 2)) by (rewrite <- S; apply rsum_nonneg; intros; apply pow2_ge_0).
    assert (0 < X) by lra. assert (0 <= X * Y - A ^ 2); [|lra]. apply (Rmult_le_reg_l X); [assumption|]. now rewrite Rmult_0_r.
Qed.

Lemma lag_card N j x : (1 <= N)%nat -> (j <= N)%nat -> lag (S N) 2 j x = card N j x.
Proof.
  intros HN Hj. pose proof (interp_card N (fun k => if Nat.eqb k j then 1 else 0) x HN) as E. unfold interp in E.
  rewrite (rsum_ext (S N) (fun k => (if Nat.eqb k j then 1 else 0) * card N k x) (fun k => card N k x * (if Nat.eqb k j then 1 else 0))) in E by (intros; ring).
  rewrite !rsum_delta in E by lia. exact E.
Qed.

Theorem C110_sum_of_squares : forall n x, (1 <= n)%nat -> -1 <= x <= 1 -> rsum n (fun k => lag n 2 k x ^ 2) <= 2.
Proof.
  intros n x Hn Hx. destruct n as [|N]; [lia|]. destruct (Nat.eq_dec N 0) as [->|N0].
  - pose proof (lag_partition 1 2 x ltac:(lra) ltac:(lia)) as P. cbn [rsum] in *. rewrite Rplus_0_l in *. rewrite P. lra.
  - assert (HN : (1 <= N)%nat) by lia. assert (PN : 0 < INR N) by (apply lt_0_INR; lia).
    set (v := fun j => 2 / INR N * trap N (fun k => cos (INR k * ang N j) * cht k x)).
    set (Q := fun z => 2 / INR N * trap N (fun k => cht k z * cht k x)).
    assert (I : interpolates (S N) v Q).
    { split.
      - unfold Q. apply (poly_lt_scal (S N) _ (fun z => trap N (fun k => cht k z * cht k x))).
        apply (poly_lt_rsum (S N) N (fun k z => (cht k z * cht k x + cht (S k) z * cht (S k) x) / 2)). intros k Hk.
        apply (poly_lt_ext _ (fun z => cht k x / 2 * cht k z + cht (S k) x / 2 * cht (S k) z)); [intros; field|].
        apply poly_lt_plus; apply poly_lt_scal; [apply (poly_lt_mono (S k)); [lia|apply cht_poly]|apply (poly_lt_mono (S (S k))); [lia|apply cht_poly]].
      - intros j Hj. unfold Q, v. f_equal. apply trap_ext. intros k Hk. rewrite node_cos, cht_cos by assumption. reflexivity. }
    assert (E : rsum (S N) (fun j => v j * card N j x) = Q x) by (rewrite <- interp_card by assumption; apply interpolates_interp; [lia|exact I]).
    assert (B : Q x <= 2).
    { unfold Q. assert (T : Rabs (trap N (fun k => cht k x * cht k x)) <= INR N).
      { apply trap_bound. intros k _. rewrite Rabs_mult. pose proof (cht_bound k x Hx). pose proof (Rabs_pos (cht k x)). nra. }
      apply Rle_trans with (2 / INR N * INR N); [|right; field; lra]. apply Rmult_le_compat_l; [|eapply Rle_trans; [apply Rle_abs|exact T]].
      apply Rlt_le, Rdiv_lt_0_compat; lra. }
    apply Rle_trans with (Q x); [|exact B]. rewrite <- E. apply rsum_le. intros j Hj. rewrite lag_card by lia.
    assert (Ec : card N j x = endw N j * v j) by (unfold card, v; field; lra). rewrite Ec.
    assert (0 < endw N j <= 1) by (unfold endw; destruct orb; lra). assert (0 <= v j ^ 2) by apply pow2_ge_0. cbn [pow] in *. nra.
Qed.
Print Assumptions C110_sum_of_squares.

Lemma interp_square n w x : (1 <= n)%nat -> -1 <= x <= 1 -> interp n 2 w x ^ 2 <= 2 * rsum n (fun k => w k ^ 2).
Proof.
  intros Hn Hx. unfold interp. eapply Rle_trans; [apply cauchy|].
  apply Rmult_le_compat_r; [apply rsum_nonneg; intros; apply pow2_ge_0|]. now apply C110_sum_of_squares.
Qed.

(** The outputs of a layer therefore grow like the square root of the number of nodes, not like the number (C79). *)
Theorem C110_root_bound : forall l W v o, held l -> pw_length l = 2 -> sum_class (pw_cls l) -> (o < pw_out l)%nat ->
  (forall i p, valid (shape (pw_w l)) [o; i; p] -> Rabs (at_ (pw_w l) [o; i; p]) <= W) ->
  inputs_in_range (pw_periodicity l) (pw_in l) v ->
  Rabs (layer_out l v o) <= INR (pw_in l) * (sqrt (2 * INR (pw_n l)) * W).
Proof.
  intros l W v o H HL Hc Ho HW Hv. pose proof (held_wf l H) as (Hn & HS & HI & _). rewrite layer_out_sum by auto.
  eapply Rle_trans; [apply rsum_abs|]. rewrite <- rsum_const. apply rsum_le. intros i Hi.
  unfold link. destruct (link_interp l o i (apply_periodicity (pw_periodicity l) (v i)) H HL) as (s & Hs & ->).
  assert (Bk : forall k, (k < pw_n l)%nat -> Rabs (at_ (pw_w l) [o; i; weight_pos (pw_cls l) (pw_n l) s k]) <= W).
  { intros k Hk. apply HW. apply wf_weight; auto. apply Hs. }
  assert (W0 : 0 <= W) by (eapply Rle_trans; [apply Rabs_pos|apply (Bk 0%nat); lia]).
  assert (Q := interp_square (pw_n l) (fun k => at_ (pw_w l) [o; i; weight_pos (pw_cls l) (pw_n l) s k]) _ Hn
    (local_range _ _ _ HS Hs (folded_range _ _ _ _ Hv Hi))).
  assert (P : 0 <= 2 * INR (pw_n l)) by (pose proof (pos_INR (pw_n l)); lra).
  apply Rsqr_incr_0_var; [|apply Rmult_le_pos; [apply sqrt_pos|exact W0]].
  rewrite <- Rsqr_abs, Rsqr_mult, Rsqr_sqrt by exact P. unfold Rsqr at 1. cbn [pow] in Q. rewrite Rmult_1_r in Q.
  eapply Rle_trans; [exact Q|]. rewrite Rmult_assoc. apply Rmult_le_compat_l; [lra|]. rewrite <- rsum_const. apply rsum_le. intros k Hk.
  specialize (Bk k Hk). rewrite Rmult_1_r. change (Rsqr (at_ (pw_w l) [o; i; weight_pos (pw_cls l) (pw_n l) s k]) <= Rsqr W).
  apply Rsqr_le_abs_1. rewrite (Rabs_pos_eq W) by exact W0. exact Bk.
Qed.
Print Assumptions C110_root_bound.

(** ** The constants of the layers *)
Lemma rsum_flat d s (F : list nat -> R) :
  rsum (prodn (d :: s)) (fun k => F (unravel (d :: s) k)) = rsum d (fun i => rsum (prodn s) (fun k => F (i :: unravel s k))).
Proof.
  cbn [prodn]. rewrite rsum_mul. apply rsum_ext. intros i Hi. apply rsum_ext. intros j Hj. cbn [unravel].
  rewrite Nat.div_add_l, Nat.div_small, Nat.add_0_r by lia. rewrite Nat.add_comm, Nat.mod_add, Nat.mod_small by lia. reflexivity.
Qed.
Lemma sqnorm3 a b c w : sqnorm [a; b; c] w = rsum a (fun o => rsum b (fun i => rsum c (fun p => at_ w [o; i; p] ^ 2))).
Proof.
  rewrite sqnorm_eq, (rsum_flat a [b; c] (fun ix => at_ w ix ^ 2)). apply rsum_ext. intros o Ho. rewrite (rsum_flat b [c] (fun ix => at_ w (o :: ix) ^ 2)).
  apply rsum_ext. intros i Hi. rewrite (rsum_flat c [] (fun ix => at_ w (o :: i :: ix) ^ 2)). apply rsum_ext. intros p Hp. cbn [prodn rsum unravel]. apply Rplus_0_l.
Qed.
Lemma sqnorm4 a b c d w : sqnorm [a; b; c; d] w = rsum a (fun o => rsum b (fun i => rsum c (fun p => rsum d (fun q => at_ w [o; i; p; q] ^ 2)))).
Proof.
  rewrite sqnorm_eq, (rsum_flat a [b; c; d] (fun ix => at_ w ix ^ 2)). apply rsum_ext. intros o Ho. rewrite (rsum_flat b [c; d] (fun ix => at_ w (o :: ix) ^ 2)).
  apply rsum_ext. intros i Hi. rewrite (rsum_flat c [d] (fun ix => at_ w (o :: i :: ix) ^ 2)). apply rsum_ext. intros p Hp.
  rewrite (rsum_flat d [] (fun ix => at_ w (o :: i :: p :: ix) ^ 2)). apply rsum_ext. intros q Hq. cbn [prodn rsum unravel]. apply Rplus_0_l.
Qed.
Lemma rsum_window n base P g : (base + n <= P)%nat -> (forall p, 0 <= g p) -> rsum n (fun k => g (base + k)%nat) <= rsum P g.
Proof.
  intros HP Hg. replace P with (base + (n + (P - base - n)))%nat by lia. rewrite !rsum_add.
  assert (0 <= rsum base g) by (apply rsum_nonneg; auto). assert (0 <= rsum (P - base - n) (fun i => g (base + (n + i))%nat)) by (apply rsum_nonneg; auto). lra.
Qed.
Lemma rsum_square n f : rsum n f ^ 2 <= INR n * rsum n (fun i => f i ^ 2).
Proof.
  pose proof (cauchy n (fun _ => 1) f) as Q. cbn beta in Q. rewrite (rsum_ext n (fun i => 1 * f i) f) in Q by (intros; ring).
  rewrite (rsum_ext n (fun _ => 1 ^ 2) (fun _ => 1)) in Q by (intros; ring). rewrite rsum_const, Rmult_1_r in Q. exact Q.
Qed.

Theorem C110_gain_piecewise : forall l x B, held l -> pw_length l = 2 -> sum_class (pw_cls l) -> shape x = [B; pw_in l] ->
  (forall b, (b < B)%nat -> inputs_in_range (pw_periodicity l) (pw_in l) (row x b)) ->
  gain (shape (pw_w l)) [B; pw_out l] (fun w => Piecewise_forward (with_w l w) x) (2 * INR (pw_in l)).
Proof.
  intros l x B Hl HL Hc Hx Hr w y Hw E ix Hix. destruct ix as [|b [|o [|? ?]]]; cbn [valid] in Hix; try tauto. destruct Hix as (Hb & Ho & _).
  set (l' := with_w l w). assert (Hl' : held l') by now apply with_w_held.
  pose proof (held_wf l Hl) as (Hn & HS & HI & HO & _ & Sw).
  destruct (forward_rows l' x B Hl' Hx) as (z & Ez & _ & V). fold l' in E. rewrite E in Ez. injection Ez as <-.
  rewrite V by assumption. rewrite layer_out_sum by assumption. change (pw_in l') with (pw_in l).
  eapply Rle_trans; [apply rsum_square|]. replace (2 * INR (pw_in l) * sqnorm (shape (pw_w l)) w) with (INR (pw_in l) * (2 * sqnorm (shape (pw_w l)) w)) by ring.
  apply Rmult_le_compat_l; [apply pos_INR|]. rewrite Sw, sqnorm3.
  set (P := pw_num_weights (pw_cls l) (pw_n l) (pw_segments l)).
  apply Rle_trans with (2 * rsum (pw_in l) (fun i => rsum P (fun p => at_ w [o; i; p] ^ 2))).
  - rewrite <- rsum_scal. apply rsum_le. intros i Hi. unfold link.
    destruct (link_interp l' o i (apply_periodicity (pw_periodicity l') (row x b i)) Hl' HL) as (s & Hs & ->).
    change (pw_n l') with (pw_n l). change (pw_cls l') with (pw_cls l). change (pw_w l') with w. change (pw_segments l') with (pw_segments l) in *.
    eapply Rle_trans; [apply interp_square; [exact Hn|]|].
    + apply (local_range _ _ _ HS Hs). exact (folded_range _ _ _ _ (Hr b Hb) Hi).
    + apply Rmult_le_compat_l; [lra|]. destruct Hs as (Hs & _).
      rewrite (rsum_ext (pw_n l) _ (fun k => at_ w [o; i; (s * pw_stride (pw_cls l) (pw_n l) + k)%nat] ^ 2)) by (intros; now rewrite weight_pos_eq).
      apply (rsum_window (pw_n l) _ P (fun p => at_ w [o; i; p] ^ 2)); [|intros; apply pow2_ge_0].
      pose proof (weight_index_lt (pw_cls l) (pw_n l) (pw_segments l) s (pw_n l - 1) Hn Hs ltac:(lia)). unfold P. lia.
  - apply Rmult_le_compat_l; [lra|].
    apply (rsum_ge_term (pw_out l) o (fun o => rsum (pw_in l) (fun i => rsum P (fun p => at_ w [o; i; p] ^ 2))) Ho).
    intros o' _. apply rsum_nonneg. intros. apply rsum_nonneg. intros. apply pow2_ge_0.
Qed.
Print Assumptions C110_gain_piecewise.

Lemma gain_function n bs p I O w0 x B c : (1 <= n)%nat -> 0 <= c -> shape x = [B; I] ->
  (forall b i, (b < B)%nat -> (i < I)%nat -> rsum n (fun k => call bs (apply_periodicity p (at_ x [b; i])) k ^ 2) <= c) ->
  gain [O; I; n] [B; O] (fun w => Function_forward (with_fw (mkFunc n bs p w0) w) x) (c * INR I).
Proof.
  intros Hn C0 Hx Hs w y Hw E ix Hix. destruct ix as [|b [|o [|? ?]]]; cbn [valid] in Hix; try tauto. destruct Hix as (Hb & Ho & _).
  unfold with_fw in E. cbn [f_n f_basis f_periodicity] in E. destruct (function_spec n bs p w x B I O Hn Hw Hx) as (z & Ez & _ & V). rewrite E in Ez. injection Ez as <-.
  rewrite V by assumption. eapply Rle_trans; [apply rsum_square|]. replace (c * INR I * sqnorm [O; I; n] w) with (INR I * (c * sqnorm [O; I; n] w)) by ring.
  apply Rmult_le_compat_l; [apply pos_INR|]. rewrite sqnorm3.
  apply Rle_trans with (c * rsum I (fun i => rsum n (fun k => at_ w [o; i; k] ^ 2))).
  - rewrite <- rsum_scal. apply rsum_le. intros i Hi. eapply Rle_trans; [apply cauchy|]. apply Rmult_le_compat_r; [apply rsum_nonneg; intros; apply pow2_ge_0|]. now apply Hs.
  - apply Rmult_le_compat_l; [exact C0|].
    apply (rsum_ge_term O o (fun o => rsum I (fun i => rsum n (fun k => at_ w [o; i; k] ^ 2))) Ho).
    intros o' _. apply rsum_nonneg. intros. apply rsum_nonneg. intros. apply pow2_ge_0.
Qed.

Theorem C110_gain_polynomial : forall n I O mag per draw x B, (1 <= n)%nat -> shape x = [B; I] ->
  (forall b, (b < B)%nat -> inputs_in_range per I (row x b)) ->
  gain [O; I; n] [B; O] (fun w => Function_forward (with_fw (Polynomial n I O 2 mag per draw) w) x) (2 * INR I).
Proof.
  intros n I O mag per draw x B Hn Hx Hr. apply gain_function; [exact Hn|lra|exact Hx|]. intros b i Hb Hi.
  apply (C110_sum_of_squares n _ Hn). exact (folded_range _ _ _ _ (Hr b Hb) Hi).
Qed.
Print Assumptions C110_gain_polynomial.

Theorem C110_gain_fourier : forall n I O len mag per draw x B, (1 <= n)%nat -> shape x = [B; I] ->
  gain [O; I; n] [B; O] (fun w => Function_forward (with_fw (FourierSeries n I O len mag per draw) w) x) (INR n * INR I).
Proof.
  intros n I O len mag per draw x B Hn Hx. apply gain_function; [exact Hn|apply pos_INR|exact Hx|]. intros b i Hb Hi.
  rewrite <- (Rmult_1_r (INR n)), <- rsum_const. apply rsum_le. intros k Hk. cbn [call FourierBasis].
  pose proof (fourier_bound len (apply_periodicity None (at_ x [b; i])) k) as F. rewrite <- (pow2_abs (fourier_call _ _ _)). pose proof (Rabs_pos (fourier_call len (apply_periodicity None (at_ x [b; i])) k)). cbn [pow]. nra.
Qed.
Print Assumptions C110_gain_fourier.

Lemma window_square C K (f : nat -> nat -> nat -> R) :
  rsum C (fun c => rsum K (fun i => rsum K (fun j => f c i j))) ^ 2 <= INR (C * K * K) * rsum C (fun c => rsum K (fun i => rsum K (fun j => f c i j ^ 2))).
Proof.
  apply Rle_trans with (INR C * rsum C (fun c => INR K * rsum K (fun i => INR K * rsum K (fun j => f c i j ^ 2)))).
  - eapply Rle_trans; [apply rsum_square|]. apply Rmult_le_compat_l; [apply pos_INR|]. apply rsum_le. intros c Hc.
    eapply Rle_trans; [apply rsum_square|]. apply Rmult_le_compat_l; [apply pos_INR|]. apply rsum_le. intros i Hi. apply rsum_square.
  - right. rewrite !mult_INR, !Rmult_assoc. f_equal. rewrite rsum_scal. f_equal. rewrite <- rsum_scal. apply rsum_ext. intros c Hc. now rewrite rsum_scal.
Qed.

(** Convolutions: of a kernel position, and of the window. *)
Definition link_gain (k : conv_kind) (n : nat) : R := match k with FourierConv => INR n | _ => 2 end.

Lemma link_square k a w x : good_args a ->
  match k with FourierConv => True | _ => (2 <= a_n a)%nat /\ a_length a = 2 /\ inputs_in_range (conv_per k a) 1 (fun _ => x) end ->
  conv_link k (a_n a) (a_segments a) (a_length a) (conv_per k a) w x ^ 2 <= link_gain k (a_n a) * rsum (conv_nb k (a_n a) (a_segments a)) (fun v => w v ^ 2).
Proof.
  intros (G1 & G2 & _) Hk.
  assert (Pw : forall c, sum_class c -> inputs_in_range (a_periodicity a) 1 (fun _ => x) ->
    layer_out (pw_link c (a_n a) (a_segments a) 2 (a_periodicity a) w) (fun _ => x) 0 ^ 2 <= 2 * rsum (pw_num_weights c (a_n a) (a_segments a)) (fun v => w v ^ 2)).
  { intros c Hc Hr. rewrite pw_link_out by assumption. set (l' := pw_link c (a_n a) (a_segments a) 2 (a_periodicity a) w).
    assert (Hl' : held l') by now apply pw_link_held. unfold link. destruct (link_interp l' 0 0 (apply_periodicity (pw_periodicity l') x) Hl' eq_refl) as (s & Hs & ->).
    change (pw_n l') with (a_n a). change (pw_cls l') with c. change (pw_segments l') with (a_segments a) in *.
    eapply Rle_trans; [apply interp_square; [exact G1|]|].
    - apply (local_range _ _ _ G2 Hs). exact (folded_range _ 1 (fun _ => x) 0 Hr ltac:(lia)).
    - apply Rmult_le_compat_l; [lra|]. destruct Hs as (Hs & _).
      rewrite (rsum_ext (a_n a) _ (fun k => w (s * pw_stride c (a_n a) + k)%nat ^ 2)) by (intros; now rewrite weight_pos_eq).
      apply (rsum_window (a_n a) _ (pw_num_weights c (a_n a) (a_segments a)) (fun p => w p ^ 2)); [|intros; apply pow2_ge_0].
      pose proof (weight_index_lt c (a_n a) (a_segments a) s (a_n a - 1) G1 Hs ltac:(lia)). lia. }
  destruct k; cbn [link_gain conv_per conv_nb conv_link] in *.
  - unfold with_fw, FourierSeries. cbn [f_n f_basis f_periodicity]. rewrite func_out_eq by auto. rewrite Rmult_comm. cbn [at_ nth].
    eapply Rle_trans; [apply cauchy|]. apply Rmult_le_compat_l; [apply rsum_nonneg; intros; apply pow2_ge_0|].
    rewrite <- (Rmult_1_r (INR (a_n a))), <- rsum_const. apply rsum_le. intros v Hv. cbn [call FourierBasis].
    pose proof (fourier_bound (a_length a) (apply_periodicity None x) v) as F. rewrite <- (pow2_abs (fourier_call _ _ _)). pose proof (Rabs_pos (fourier_call (a_length a) (apply_periodicity None x) v)). cbn [pow]. nra.
  - destruct Hk as (_ & -> & Hr). unfold with_fw, Polynomial. cbn [f_n f_basis f_periodicity]. rewrite func_out_eq by auto.
    rewrite Rmult_comm. cbn [at_ nth]. eapply Rle_trans; [apply cauchy|]. apply Rmult_le_compat_l; [apply rsum_nonneg; intros; apply pow2_ge_0|].
    apply (C110_sum_of_squares (a_n a) _ G1). exact (folded_range _ 1 (fun _ => x) 0 Hr ltac:(lia)).
  - destruct Hk as (_ & -> & Hr). apply Pw; [now left|exact Hr].
  - destruct Hk as (_ & -> & Hr). apply Pw; [now right|exact Hr].
Qed.

Theorem C110_gain_conv2d : forall k a l x B H W, good_args a -> held_conv2d k a l -> boundable k a x ->
  shape x = [B; a_in a; H; W] -> fits a H -> fits a W ->
  gain (shape (cv_w l)) [B; a_out a; positions a H; positions a W] (fun w => conv2d_forward (conv_with_w l w) x)
    (output_scale a ^ 2 * INR (a_in a * a_kernel a * a_kernel a) * link_gain k (a_n a)).
Proof.
  intros k a l x B H W G Hl Hb Hx FH FW w y Hw E ix Hix.
  assert (HL : fc_length k a) by (destruct k; cbn in *; tauto).
  set (l' := conv_with_w l w) in *.
  assert (Hl' : held_conv2d k a l').
  { destruct Hl as (u & draw & l0 & w1 & E0 & S0 & ->). exists u, draw, l0, w. split; [exact E0|]. split; [|reflexivity]. rewrite Hw. cbn. exact S0. }
  destruct (C35_conv2d k a l' x B H W G HL Hl' Hx FH FW) as (z & Ez & _ & V). rewrite E in Ez. injection Ez as <-.
  destruct ix as [|b [|o [|p [|q [|]]]]]; cbn -[positions] in Hix; try tauto. destruct Hix as (Hb' & Ho & Hp & Hq & _).
  rewrite V by assumption. destruct (held_conv2d_eq k a l G Hl) as (w0 & -> & Sw). change (shape (cv_w (conv_of k a w0))) with (shape w0) in *. rewrite Sw, sqnorm4.
  set (nb := conv_nb k (a_n a) (a_segments a)) in *. set (K := a_kernel a). set (C := a_in a).
  assert (LG : 0 <= link_gain k (a_n a)) by (destruct k; cbn [link_gain]; try lra; apply pos_INR).
  rewrite Rpow_mult_distr, !Rmult_assoc. apply Rmult_le_compat_l; [apply pow2_ge_0|].
  apply Rle_trans with (INR (C * K * K) * rsum C (fun c => rsum K (fun i => rsum K (fun j => (if (reads a H p i && reads a W q j)%bool then conv_link k (a_n a) (a_segments a) (a_length a) (conv_per k a) (kernel2d k a l' o c i j) (at_ x [b; c; row_read a p i; row_read a q j]) else 0) ^ 2)))).
  { apply window_square. }
  apply Rmult_le_compat_l; [apply pos_INR|].
  apply Rle_trans with (link_gain k (a_n a) * rsum C (fun c => rsum K (fun i => rsum K (fun j => rsum nb (fun v => at_ w [o; (c * nb + v)%nat; i; j] ^ 2))))).
  { rewrite <- rsum_scal. apply rsum_le. intros c Hc. rewrite <- rsum_scal. apply rsum_le. intros i Hi. rewrite <- rsum_scal. apply rsum_le. intros j Hj.
    assert (Z : 0 <= link_gain k (a_n a) * rsum nb (fun v => at_ w [o; (c * nb + v)%nat; i; j] ^ 2)).
    { apply Rmult_le_pos; [exact LG|]. apply rsum_nonneg. intros. apply pow2_ge_0. }
    destruct (reads a H p i) eqn:R1; cbn [andb]; [|rewrite pow_i by lia; exact Z].
    destruct (reads a W q j) eqn:R2; [|rewrite pow_i by lia; exact Z].
    apply (link_square k a (kernel2d k a l' o c i j)); [exact G|].
    destruct k; cbn [boundable] in Hb; auto; destruct Hb as (? & ? & R); repeat split; auto; apply R; rewrite Hx; cbn -[row_read]; repeat split; auto; now apply read_inside. }
  apply Rmult_le_compat_l; [exact LG|].
  apply Rle_trans with (rsum (nb * C) (fun m => rsum K (fun i => rsum K (fun j => at_ w [o; m; i; j] ^ 2)))).
  - right. rewrite (Nat.mul_comm nb C), rsum_mul. apply rsum_ext. intros c Hc. symmetry.
    rewrite (rsum_swap nb K (fun v i => rsum K (fun j => at_ w [o; (c * nb + v)%nat; i; j] ^ 2))). apply rsum_ext. intros i Hi.
    apply (rsum_swap nb K (fun v j => at_ w [o; (c * nb + v)%nat; i; j] ^ 2)).
  - apply (rsum_ge_term (a_out a) o (fun o => rsum (nb * C) (fun m => rsum K (fun i => rsum K (fun j => at_ w [o; m; i; j] ^ 2)))) Ho).
    intros o' _. apply rsum_nonneg. intros. apply rsum_nonneg. intros. apply rsum_nonneg. intros. apply pow2_ge_0.
Qed.
Print Assumptions C110_gain_conv2d.

(** ** Training one layer *)
(** Descents exist from all weights, never increase the loss and reach the loss of any weights at rate 1/T. *)
Definition learns (Sw : list nat) (f : tensor R -> res (tensor R)) (y : tensor R) (eta : R) : Prop :=
  (forall w, shape w = Sw -> exists ws, ws O = w /\ descent (loss_of f y) Sw eta ws) /\
  forall ws, descent (loss_of f y) Sw eta ws ->
    (forall t, loss_of f y (ws (S t)) <= loss_of f y (ws t)) /\
    forall w T, shape w = Sw -> (1 <= T)%nat -> loss_of f y (ws T) <= loss_of f y w + sqdist Sw (ws O) w / (2 * eta * INR T).

Lemma learns_if Sw Sy f L y eta : linear_in_weights Sw Sy f -> gain Sw Sy f L -> numel y = prodn Sy -> (1 <= prodn Sy)%nat ->
  0 < eta -> 2 * eta * L <= 1 -> learns Sw f y eta.
Proof.
  intros Lin Gn Ny Hn E0 EL. split; [intros; now apply (C110_exists Sw Sy f L)|]. intros ws D. exact (C110_converges Sw Sy f L y eta ws Lin Gn Ny Hn E0 EL D).
Qed.

Theorem C110_piecewise : forall l x y B eta, held l -> pw_length l = 2 -> sum_class (pw_cls l) -> (1 <= B)%nat ->
  shape x = [B; pw_in l] -> shape y = [B; pw_out l] -> (forall b, (b < B)%nat -> inputs_in_range (pw_periodicity l) (pw_in l) (row x b)) ->
  0 < eta <= / (4 * INR (pw_in l)) -> learns (shape (pw_w l)) (fun w => Piecewise_forward (with_w l w) x) y eta.
Proof.
  intros l x y B eta Hl HL Hc HB Hx Hy Hr (E0 & E1). pose proof (held_wf l Hl) as (_ & _ & HI & HO & _). pose proof (INR_pos _ HI) as P.
  apply (learns_if _ [B; pw_out l] _ (2 * INR (pw_in l))).
  - now apply C86_piecewise_linear.
  - now apply C110_gain_piecewise.
  - unfold numel. now rewrite Hy.
  - cbn [prodn]. nia.
  - exact E0.
  - apply (Rmult_le_compat_l (4 * INR (pw_in l))) in E1; [|lra]. rewrite Rinv_r in E1 by lra. lra.
Qed.
Print Assumptions C110_piecewise.

Theorem C110_polynomial : forall n I O mag per draw x y B eta, (1 <= n)%nat -> (1 <= I)%nat -> (1 <= O)%nat -> (1 <= B)%nat ->
  shape x = [B; I] -> shape y = [B; O] -> (forall b, (b < B)%nat -> inputs_in_range per I (row x b)) ->
  0 < eta <= / (4 * INR I) -> learns [O; I; n] (fun w => Function_forward (with_fw (Polynomial n I O 2 mag per draw) w) x) y eta.
Proof.
  intros n I O mag per draw x y B eta Hn HI HO HB Hx Hy Hr (E0 & E1). pose proof (INR_pos _ HI) as P.
  apply (learns_if _ [B; O] _ (2 * INR I)).
  - apply (C86_function_linear n _ per I O (mkT [O; I; n] (fun _ => 0)) x B); auto.
  - now apply C110_gain_polynomial.
  - unfold numel. now rewrite Hy.
  - cbn [prodn]. nia.
  - exact E0.
  - apply (Rmult_le_compat_l (4 * INR I)) in E1; [|lra]. rewrite Rinv_r in E1 by lra. lra.
Qed.
Print Assumptions C110_polynomial.

(** Fourier series: on all inputs. *)
Theorem C110_fourier : forall n I O len mag per draw x y B eta, (1 <= n)%nat -> (1 <= I)%nat -> (1 <= O)%nat -> (1 <= B)%nat ->
  shape x = [B; I] -> shape y = [B; O] ->
  0 < eta <= / (2 * INR n * INR I) -> learns [O; I; n] (fun w => Function_forward (with_fw (FourierSeries n I O len mag per draw) w) x) y eta.
Proof.
  intros n I O len mag per draw x y B eta Hn HI HO HB Hx Hy (E0 & E1). pose proof (INR_pos _ HI) as P. pose proof (INR_pos _ Hn) as Q.
  apply (learns_if _ [B; O] _ (INR n * INR I)).
  - apply (C86_function_linear n _ None I O (mkT [O; I; n] (fun _ => 0)) x B); auto.
  - now apply C110_gain_fourier.
  - unfold numel. now rewrite Hy.
  - cbn [prodn]. nia.
  - exact E0.
  - assert (0 < INR n * INR I) by nra. apply (Rmult_le_compat_l (2 * INR n * INR I)) in E1; [|nra]. rewrite Rinv_r in E1 by nra. lra.
Qed.
Print Assumptions C110_fourier.

Theorem C110_conv2d : forall k a l x y B H W eta, good_args a -> held_conv2d k a l -> boundable k a x -> (1 <= B)%nat ->
  shape x = [B; a_in a; H; W] -> fits a H -> fits a W -> shape y = [B; a_out a; positions a H; positions a W] ->
  0 < eta -> 2 * eta * (output_scale a ^ 2 * INR (a_in a * a_kernel a * a_kernel a) * link_gain k (a_n a)) <= 1 ->
  learns (shape (cv_w l)) (fun w => conv2d_forward (conv_with_w l w) x) y eta.
Proof.
  intros k a l x y B H W eta G Hl Hb HB Hx FH FW Hy E0 E1.
  apply (learns_if _ [B; a_out a; positions a H; positions a W] _ (output_scale a ^ 2 * INR (a_in a * a_kernel a * a_kernel a) * link_gain k (a_n a))).
  - now apply (C86_conv2d_linear k).
  - now apply C110_gain_conv2d.
  - unfold numel. now rewrite Hy.
  - assert ((1 <= positions a H)%nat /\ (1 <= positions a W)%nat) as (P1 & P2) by (split; unfold positions; lia).
    destruct G as (_ & _ & _ & G4 & _). cbn -[positions]. nia.
  - exact E0.
  - exact E1.
Qed.
Print Assumptions C110_conv2d.

(** ** Too large a learning rate *)
(** A layer with one weight and one sample, for which rates up to 1/4 are covered: any rate above 1 makes the loss grow geometrically. *)
Theorem C110_large_rate_diverges_refuted : forall c eta, sum_class c -> 1 < eta -> exists l x y ws,
  held l /\ pw_cls l = c /\ pw_length l = 2 /\ pw_in l = 1%nat /\ shape x = [1; 1]%nat /\ inputs_in_range (pw_periodicity l) 1 (row x 0) /\ shape y = [1; 1]%nat /\
  descent (loss_of (fun w => Piecewise_forward (with_w l w) x) y) (shape (pw_w l)) eta ws /\
  forall t, loss_of (fun w => Piecewise_forward (with_w l w) x) y (ws t) = ((2 * eta - 1) ^ 2) ^ t.
Proof.
  intros c eta Hc He. set (l := new_piecewise c 1 1 1 1 2 1 None (fun _ _ => 0)). set (x := mkT [1; 1]%nat (fun _ => 0)). set (y := mkT [1; 1]%nat (fun _ => 1)).
  assert (Hl : held l) by (apply new_held; lia).
  assert (Sw : shape (pw_w l) = [1; 1; 1]%nat) by (destruct Hc as [-> | ->]; reflexivity).
  set (f := fun w => Piecewise_forward (with_w l w) x).
  assert (Lin : linear_in_weights [1; 1; 1]%nat [1; 1]%nat f) by (rewrite <- Sw; now apply C86_piecewise_linear).
  assert (Ov : forall w, shape w = [1; 1; 1]%nat -> out f w 0 = at_ w [0; 0; 0]%nat).
  { intros w Hw. assert (Hlw : held (with_w l w)) by (apply with_w_held; congruence). unfold out, f.
    destruct (forward_rows (with_w l w) x 1 Hlw eq_refl) as (z & Ez & Sz & Vz). rewrite Ez. unfold entry_at. rewrite Sz.
    change (unravel [1; pw_out (with_w l w)]%nat 0) with [0; 0]%nat. rewrite Vz by (cbn; lia). rewrite layer_out_sum by (auto; cbn; lia). cbn [rsum pw_in with_w l new_piecewise].
    rewrite Rplus_0_l. unfold link. destruct (link_interp (with_w l w) 0 0 (apply_periodicity None (row x 0 0)) Hlw eq_refl) as (s & (Hs & _) & E).
    change (pw_periodicity (with_w l w)) with (@None R). rewrite E. cbn in Hs. assert (s = 0%nat) by lia. subst s.
    pose proof (lag_partition 1 2 (seg_local (pw_segments (with_w l w)) 0 (apply_periodicity None (row x 0 0))) ltac:(lra) ltac:(lia)) as P. unfold interp. cbn [pw_n with_w l new_piecewise rsum] in *.
    rewrite Rplus_0_l in *. etransitivity; [apply (f_equal2 Rmult); [exact P|reflexivity]|]. destruct Hc as [-> | ->]; cbn; ring. }
  set (v := fun t => 1 - (1 - 2 * eta) ^ t).
  set (ws := fun t => (fix ws (t : nat) : tensor R := match t with O => mkT [1; 1; 1]%nat (fun _ => 0) | S t => blend 1 (ws t) (- eta) (mkT [1; 1; 1]%nat (fun _ => 2 * (v t - 1))) end) t).
  assert (Hs : forall t, shape (ws t) = [1; 1; 1]%nat) by (induction t; [reflexivity|exact IHt]).
  assert (Hv : forall t, at_ (ws t) [0; 0; 0]%nat = v t).
  { induction t as [|t IH]; [cbn; unfold v; cbn; ring|]. change (ws (S t)) with (blend 1 (ws t) (- eta) (mkT [1; 1; 1]%nat (fun _ => 2 * (v t - 1)))).
    cbn [blend at_]. rewrite IH. unfold v. cbn [pow]. ring. }
  assert (Gr : forall t, is_gradient (loss_of f y) [1; 1; 1]%nat (ws t) (mkT [1; 1; 1]%nat (fun _ => 2 * (v t - 1)))).
  { intros t. split; [reflexivity|]. intros d Hd. pose proof (loss_deriv [1; 1; 1]%nat [1; 1]%nat f y Lin eq_refl (le_n 1) (ws t) d (Hs t) Hd) as D.
    eapply eq_rect; [exact D|]. cbn beta.
    unfold dot. change (prodn [1; 1]%nat) with 1%nat. change (prodn [1; 1; 1]%nat) with 1%nat. cbn [rsum]. rewrite !Ov by auto. rewrite Hv.
    change (unravel [1; 1; 1]%nat 0) with [0; 0; 0]%nat. change (entry_at y 0) with 1. cbn [at_ INR]. field. }
  exists l, x, y, ws. split; [exact Hl|]. split; [reflexivity|]. split; [reflexivity|]. split; [reflexivity|]. split; [reflexivity|].
  split; [intros i Hi; cbn; lra|]. split; [reflexivity|]. split.
  - rewrite Sw. split; [reflexivity|]. intros t. exists (mkT [1; 1; 1]%nat (fun _ => 2 * (v t - 1))). split; [apply Gr|reflexivity].
  - intros t. change (loss_of f y (ws t) = ((2 * eta - 1) ^ 2) ^ t). rewrite (loss_eq [1; 1; 1]%nat [1; 1]%nat f y Lin eq_refl (le_n 1)) by apply Hs.
    change (prodn [1; 1]%nat) with 1%nat. cbn [rsum INR]. rewrite Ov, Hv by apply Hs. change (entry_at y 0) with 1. unfold v.
    transitivity (((1 - 2 * eta) ^ t) ^ 2); [field|]. rewrite <- pow_mult, Nat.mul_comm, pow_mult. apply (f_equal (fun z => z ^ t)). ring.
Qed.
Print Assumptions C110_large_rate_diverges_refuted.

(** Case: two inputs, three nodes, two segments, two samples; learning rate 1/8. *)
Example C110_case : exists l x y, held l /\ pw_in l = 2%nat /\ pw_n l = 3%nat /\ pw_segments l = 2%nat /\
  learns (shape (pw_w l)) (fun w => Piecewise_forward (with_w l w) x) y (1/8).
Proof.
  exists (new_piecewise PiecewisePolynomial 3 2 1 2 2 1 None (fun _ _ => 0)), (mkT [2; 2]%nat (fun ix => INR (nth 0 ix 0%nat) / (1 + INR (nth 0 ix 0%nat)))), (mkT [2; 1]%nat (fun ix => INR (nth 0 ix 0%nat))).
  assert (H : held (new_piecewise PiecewisePolynomial 3 2 1 2 2 1 None (fun _ _ => 0))) by (apply new_held; lia).
  split; [exact H|]. split; [reflexivity|]. split; [reflexivity|]. split; [reflexivity|].
  apply (C110_piecewise _ _ _ 2); [exact H|reflexivity|now left|lia|reflexivity|reflexivity| |cbn; lra].
  intros b Hb i Hi. unfold row. cbn [at_ nth]. pose proof (pos_INR b). split; [apply Rle_trans with 0; [lra|]; apply Rmult_le_pos; [lra|]; apply Rlt_le, Rinv_0_lt_compat; lra|].
  apply (Rmult_le_reg_r (1 + INR b)); [lra|]. unfold Rdiv. rewrite Rmult_assoc, Rinv_l by lra. lra.
Qed.
