(** * Layers are linear in their weights; regression with one layer has no spurious minima (C86). *)
From Coq Require Import String Reals ZArith List Lia Lra Psatz Bool.
From Verif Require Import Spec Tensor Utils LagrangePolynomial Basis PolynomialLayers Expand Convolution Observe ObserveConv ObserveModules
  SumFacts TensorFacts LagrangeFacts LayerFacts SegmentFacts LayerProofs ConvFacts Prop_Conv Modules Prop_Step.
Import ListNotations.
Local Open Scope R_scope.

(** Entrywise [a * w + b * w']. *)
Definition blend (a : R) (w : tensor R) (b : R) (w' : tensor R) : tensor R := mkT (shape w) (fun ix => a * at_ w ix + b * at_ w' ix).

(** A function of weights of shape [Sw] that always succeeds with a result of shape [Sy], each entry of which depends
    linearly on the weights. *)
Definition linear_in_weights (Sw Sy : list nat) (f : tensor R -> res (tensor R)) : Prop :=
  (forall w, shape w = Sw -> exists y, f w = Ok y /\ shape y = Sy) /\
  forall w w' a b y y' z, shape w = Sw -> shape w' = Sw -> f w = Ok y -> f w' = Ok y' -> f (blend a w b w') = Ok z ->
    forall ix, valid Sy ix -> at_ z ix = a * at_ y ix + b * at_ y' ix.

Lemma lin_rsum n F G H a b : (forall i, (i < n)%nat -> F i = a * G i + b * H i) -> rsum n F = a * rsum n G + b * rsum n H.
Proof. intros E. rewrite (rsum_ext n F _ E), rsum_plus, !rsum_scal. reflexivity. Qed.
Lemma lin_scal c F G H a b : F = a * G + b * H -> c * F = a * (c * G) + b * (c * H).
Proof. intros ->. ring. Qed.
Lemma lin_padded n p y F G H a b : (forall z, F z = a * G z + b * H z) -> padded n p y F = a * padded n p y G + b * padded n p y H.
Proof. intros E. unfold padded. destruct (_ && _)%bool; [apply E|ring]. Qed.

(** ** C86: which layers are linear in their weights *)
Theorem C86_piecewise_linear : forall l x B, held l -> sum_class (pw_cls l) -> shape x = [B; pw_in l] ->
  linear_in_weights (shape (pw_w l)) [B; pw_out l] (fun w => Piecewise_forward (with_w l w) x).
Proof.
  intros l x B Hl Hc Hx. split.
  - intros w Hw. destruct (forward_rows (with_w l w) x B (with_w_held l w Hl Hw) Hx) as (y & E & Sy & _). eauto.
  - intros w w' a b y y' z Hw Hw' Ey Ey' Ez ix Hix.
    assert (H : forall w0 y0, shape w0 = shape (pw_w l) -> Piecewise_forward (with_w l w0) x = Ok y0 ->
      forall p o, (p < B)%nat -> (o < pw_out l)%nat -> at_ y0 [p; o] = layer_out (with_w l w0) (row x p) o).
    { intros w0 y0 H0 E0. destruct (forward_rows (with_w l w0) x B (with_w_held l w0 Hl H0) Hx) as (y1 & E1 & _ & V). rewrite E0 in E1. injection E1 as <-. exact V. }
    destruct ix as [|p [|o [|? ?]]]; cbn in Hix; try tauto. destruct Hix as (Hp & Ho & _).
    rewrite (H w y), (H w' y'), (H (blend a w b w') z) by auto.
    rewrite !layer_out_sum by (auto using with_w_held). apply lin_rsum. intros i Hi. rewrite !link_with_w. cbv zeta.
    unfold interp. apply lin_rsum. intros k Hk. cbn. ring.
Qed.
Print Assumptions C86_piecewise_linear.

Theorem C86_function_linear : forall n bs p I O w0 x B, (1 <= n)%nat -> shape w0 = [O; I; n] -> shape x = [B; I] ->
  linear_in_weights [O; I; n] [B; O] (fun w => Function_forward (with_fw (mkFunc n bs p w0) w) x).
Proof.
  intros n bs p I O w0 x B Hn _ Hx. unfold with_fw. cbn [f_n f_basis f_periodicity]. split.
  - intros w Hw. destruct (function_spec n bs p w x B I O Hn Hw Hx) as (y & E & Sy & _). eauto.
  - intros w w' a b y y' z Hw Hw' Ey Ey' Ez ix Hix.
    assert (H : forall w0 y0, shape w0 = [O; I; n] -> Function_forward (mkFunc n bs p w0) x = Ok y0 ->
      forall q o, (q < B)%nat -> (o < O)%nat -> at_ y0 [q; o] = rsum I (fun i => rsum n (fun k => call bs (apply_periodicity p (at_ x [q; i])) k * at_ w0 [o; i; k]))).
    { intros w1 y0 H0 E0. destruct (function_spec n bs p w1 x B I O Hn H0 Hx) as (y1 & E1 & _ & V). rewrite E0 in E1. injection E1 as <-. exact V. }
    destruct ix as [|q [|o [|? ?]]]; cbn in Hix; try tauto. destruct Hix as (Hq & Ho & _).
    rewrite (H w y), (H w' y'), (H (blend a w b w') z) by auto.
    apply lin_rsum. intros i Hi. apply lin_rsum. intros k Hk. cbn. ring.
Qed.
Print Assumptions C86_function_linear.

Theorem C86_conv2d_linear : forall k a l x B H W, good_args a -> held_conv2d k a l ->
  shape x = [B; a_in a; H; W] -> fits a H -> fits a W ->
  linear_in_weights (shape (cv_w l)) [B; a_out a; positions a H; positions a W] (fun w => conv2d_forward (conv_with_w l w) x).
Proof.
  intros k a l x B H W G Hl Hx FH FW. destruct (held_conv2d_eq k a l G Hl) as (w0 & -> & Hw0). pose proof G as (G1 & G2 & _).
  assert (F : forall w, shape w = shape w0 -> exists y, conv2d_forward (conv_of k a w) x = Ok y /\ shape y = [B; a_out a; positions a H; positions a W] /\
     forall b o p q, (b < B)%nat -> at_ y [b; o; p; q] = conv2d_value (conv_of k a w) H W x b o p q).
  { intros w Hw. apply (conv2d_forward_value (conv_of k a w) x B H W); try assumption; try (now apply fits_size). cbn. now rewrite Hw. }
  change (forall w, conv_with_w (conv_of k a w0) w = conv_of k a w) with (forall w, conv_of k a w = conv_of k a w).
  change (fun w => conv2d_forward (conv_with_w (conv_of k a w0) w) x) with (fun w => conv2d_forward (conv_of k a w) x).
  change (shape (cv_w (conv_of k a w0))) with (shape w0). split.
  - intros w Hw. destruct (F w Hw) as (y & E & Sy & _). eauto.
  - intros w w' s t y y' z Hw Hw' Ey Ey' Ez ix Hix.
    destruct (F w Hw) as (y0 & E0 & _ & V). rewrite Ey in E0. injection E0 as <-.
    destruct (F w' Hw') as (y0 & E0 & _ & V'). rewrite Ey' in E0. injection E0 as <-.
    destruct (F (blend s w t w') Hw) as (y0 & E0 & _ & V2). rewrite Ez in E0. injection E0 as <-.
    destruct ix as [|b [|o [|p [|q [|? ?]]]]]; cbn in Hix; try tauto. destruct Hix as (Hb & _).
    rewrite V, V', V2 by auto. unfold conv2d_value. apply lin_scal. apply lin_rsum. intros c Hc. apply lin_rsum. intros i Hi. apply lin_rsum. intros j Hj.
    apply lin_padded. intros u. apply lin_padded. intros v. apply lin_rsum. intros m Hm. cbn. ring.
Qed.
Print Assumptions C86_conv2d_linear.

Theorem C86_conv1d_linear : forall k a l x B H, good_args a -> held_conv1d k a l ->
  shape x = [B; a_in a; H] -> fits a H ->
  linear_in_weights (shape (cv_w l)) [B; a_out a; positions a H] (fun w => conv1d_forward (conv_with_w l w) x).
Proof.
  intros k a l x B H G Hl Hx FH. destruct (held_conv1d_eq k a l Hl) as (NF & w0 & -> & Hw0). pose proof G as (G1 & G2 & _).
  assert (F : forall w, shape w = shape w0 -> exists y, conv1d_forward (conv_of k a w) x = Ok y /\ shape y = [B; a_out a; positions a H] /\
     forall b o p, (b < B)%nat -> at_ y [b; o; p] = conv1d_value (conv_of k a w) H x b o p).
  { intros w Hw. apply (conv1d_forward_value (conv_of k a w) x B H); try assumption; try (now apply fits_size). cbn. now rewrite Hw. }
  change (fun w => conv1d_forward (conv_with_w (conv_of k a w0) w) x) with (fun w => conv1d_forward (conv_of k a w) x).
  change (shape (cv_w (conv_of k a w0))) with (shape w0). split.
  - intros w Hw. destruct (F w Hw) as (y & E & Sy & _). eauto.
  - intros w w' s t y y' z Hw Hw' Ey Ey' Ez ix Hix.
    destruct (F w Hw) as (y0 & E0 & _ & V). rewrite Ey in E0. injection E0 as <-.
    destruct (F w' Hw') as (y0 & E0 & _ & V'). rewrite Ey' in E0. injection E0 as <-.
    destruct (F (blend s w t w') Hw) as (y0 & E0 & _ & V2). rewrite Ez in E0. injection E0 as <-.
    destruct ix as [|b [|o [|p [|? ?]]]]; cbn in Hix; try tauto. destruct Hix as (Hb & _).
    rewrite V, V', V2 by auto. unfold conv1d_value. apply lin_scal. apply lin_rsum. intros c Hc. apply lin_rsum. intros i Hi.
    apply lin_padded. intros u. apply lin_rsum. intros m Hm. cbn. ring.
Qed.
Print Assumptions C86_conv1d_linear.

(** ** Consequences for the regression loss *)
Lemma rsum_ge_term n j f : (j < n)%nat -> (forall i, (i < n)%nat -> 0 <= f i) -> f j <= rsum n f.
Proof.
  induction n as [|n IH]; intros Hj Hf; [lia|]. cbn [rsum]. destruct (Nat.eq_dec j n) as [->|].
  - assert (0 <= rsum n f) by (apply rsum_nonneg; intros; apply Hf; lia). lra.
  - specialize (IH ltac:(lia) ltac:(intros; apply Hf; lia)). specialize (Hf n ltac:(lia)). lra.
Qed.
Lemma entry_valid (y : tensor R) i : (i < numel y)%nat -> valid (shape y) (unravel (shape y) i).
Proof. intros H. now apply unravel_valid. Qed.

(** The loss the regression module returns for a function linear in its weights: convex, and a point at which it cannot
    be decreased to first order, or by small changes, is a global minimum. *)
Theorem C86_regression_no_spurious_minimum : forall Sw Sy f y name, linear_in_weights Sw Sy f -> numel y = prodn Sy -> (1 <= prodn Sy)%nat ->
  exists loss : tensor R -> R,
    (forall w, shape w = Sw -> regression_eval_step (f w) y name = Ok (Some (loss w), [((name ++ "_loss")%string, Some (loss w))])) /\
    (forall w w' t, shape w = Sw -> shape w' = Sw -> 0 <= t <= 1 -> loss (blend (1 - t) w t w') <= (1 - t) * loss w + t * loss w') /\
    (forall w, shape w = Sw -> (forall d, shape d = Sw -> derivable_pt_lim (fun t => loss (blend 1 w t d)) 0 0) ->
       forall w', shape w' = Sw -> loss w <= loss w') /\
    (forall w e, shape w = Sw -> 0 < e ->
       (forall w', shape w' = Sw -> (forall ix, valid Sw ix -> Rabs (at_ w' ix - at_ w ix) < e) -> loss w <= loss w') ->
       forall w', shape w' = Sw -> loss w <= loss w').
Proof.
  intros Sw Sy f y name (Tot & Lin) Ny Hn. set (n := prodn Sy) in *.
  set (err := fun w i => match f w with Ok v => entry_at v i - entry_at y i | Err _ => 0 end).
  set (loss := fun w => rsum n (fun i => err w i ^ 2) / INR n).
  assert (N0 : 0 < INR n) by (apply lt_0_INR; lia). assert (I0 : 0 < / INR n) by now apply Rinv_0_lt_compat.
  assert (Er : forall a w b w' i, shape w = Sw -> shape w' = Sw -> a + b = 1 -> (i < n)%nat -> err (blend a w b w') i = a * err w i + b * err w' i).
  { intros a w b w' i Hw Hw' Ab Hi. unfold err. destruct (Tot w Hw) as (v & Ev & Sv). destruct (Tot w' Hw') as (v' & Ev' & Sv').
    destruct (Tot (blend a w b w') Hw) as (z & Ez & Sz). rewrite Ev, Ev', Ez. unfold entry_at. rewrite Sv, Sv', Sz.
    rewrite (Lin w w' a b v v' z Hw Hw' Ev Ev' Ez) by (now apply unravel_valid). replace b with (1 - a) by lra. ring. }
  assert (Dir : forall w w' t i, shape w = Sw -> shape w' = Sw -> (i < n)%nat -> err (blend 1 w t (blend 1 w' (-1) w)) i = err w i + t * (err w' i - err w i)).
  { intros w w' t i Hw Hw' Hi. unfold err. destruct (Tot w Hw) as (v & Ev & Sv). destruct (Tot w' Hw') as (v' & Ev' & Sv').
    destruct (Tot (blend 1 w' (-1) w) Hw') as (d & Ed & Sd). destruct (Tot (blend 1 w t (blend 1 w' (-1) w)) Hw) as (z & Ez & Sz).
    rewrite Ev, Ev', Ez. unfold entry_at. rewrite Sv, Sv', Sz.
    rewrite (Lin w (blend 1 w' (-1) w) 1 t v d z Hw Hw' Ev Ed Ez) by (now apply unravel_valid).
    rewrite (Lin w' w 1 (-1) v' v d Hw' Hw Ev' Ev Ed) by (now apply unravel_valid). ring. }
  assert (Cvx : forall w w' t, shape w = Sw -> shape w' = Sw -> 0 <= t <= 1 -> loss (blend (1 - t) w t w') <= (1 - t) * loss w + t * loss w').
  { intros w w' t Hw Hw' Ht. unfold loss, Rdiv. rewrite <- !Rmult_assoc, <- Rmult_plus_distr_r. apply Rmult_le_compat_r; [lra|].
    rewrite <- !rsum_scal, <- rsum_plus. apply rsum_le. intros i Hi. rewrite Er by (auto; lra).
    generalize (err w i) (err w' i). intros p q. assert (0 <= t * (1 - t) * (p - q) ^ 2) by (apply Rmult_le_pos; [nra|apply pow2_ge_0]). nra. }
  exists loss. split; [|split; [exact Cvx|split]].
  - intros w Hw. destruct (Tot w Hw) as (v & Ev & Sv). rewrite Ev.
    destruct (C73_regression_loss v y name n) as (r & E & Rl & _); auto; [unfold numel; now rewrite Sv|].
    rewrite E. replace (loss w) with r; auto. rewrite Rl. unfold loss. f_equal. apply rsum_ext. intros i Hi. unfold err. now rewrite Ev.
  - intros w Hw St w' Hw'. specialize (St (blend 1 w' (-1) w) Hw').
    set (A := rsum n (fun i => (err w' i - err w i) ^ 2)). set (C := rsum n (fun i => err w i * (err w' i - err w i))).
    assert (Q : forall t, loss (blend 1 w t (blend 1 w' (-1) w)) = loss w + (2 * C / INR n) * t + A / INR n * (t * t)).
    { intros t. unfold loss. rewrite (rsum_ext n _ (fun i => err w i ^ 2 + (2 * t) * (err w i * (err w' i - err w i)) + (t * t) * (err w' i - err w i) ^ 2)).
      - rewrite !rsum_plus, !rsum_scal. fold A C. field. lra.
      - intros i Hi. rewrite Dir by auto. ring. }
    assert (D : derivable_pt_lim (fun t => loss (blend 1 w t (blend 1 w' (-1) w))) 0 (2 * C / INR n)).
    { set (c := 2 * C / INR n) in *. set (q := A / INR n) in *.
      assert (D0 : derivable_pt_lim (fun t => loss w + c * t + q * (t * t)) 0 (0 + c * 1 + q * (1 * 0 + 0 * 1))).
      { apply (derivable_pt_lim_plus (fun t => loss w + c * t) (fun t => q * (t * t))).
        - apply (derivable_pt_lim_plus (fun _ => loss w) (fun t => c * t)); [apply derivable_pt_lim_const|].
          apply (derivable_pt_lim_scal id). apply derivable_pt_lim_id.
        - apply (derivable_pt_lim_scal (fun t => t * t)). apply (derivable_pt_lim_mult id id); apply derivable_pt_lim_id. }
      replace (0 + c * 1 + q * (1 * 0 + 0 * 1)) with c in D0 by ring.
      intros eps He. destruct (D0 eps He) as (dl & V). exists dl. intros k Hk Hk'. rewrite !Q. now apply V. }
    pose proof (uniqueness_limite _ _ _ _ St D) as C0.
    assert (E' : loss w' = loss w + A / INR n).
    { unfold loss, A. rewrite (rsum_ext n (fun i => err w' i ^ 2) (fun i => err w i ^ 2 + 2 * (err w i * (err w' i - err w i)) + (err w' i - err w i) ^ 2)) by (intros; ring).
      rewrite !rsum_plus, !rsum_scal. fold C. unfold Rdiv in *. rewrite !Rmult_plus_distr_r. rewrite <- C0. ring. }
    rewrite E'. assert (0 <= A / INR n) by (apply Rmult_le_pos; [apply rsum_nonneg; intros; apply pow2_ge_0|lra]). lra.
  - intros w e Hw He Loc w' Hw'. destruct (Rle_lt_dec (loss w) (loss w')) as [|Lt]; auto. exfalso.
    set (M := rsum (prodn Sw) (fun k => Rabs (at_ w' (unravel Sw k) - at_ w (unravel Sw k))) + 1).
    assert (M1 : 1 <= M) by (unfold M; assert (0 <= rsum (prodn Sw) (fun k => Rabs (at_ w' (unravel Sw k) - at_ w (unravel Sw k)))) by (apply rsum_nonneg; intros; apply Rabs_pos); lra).
    assert (Bd : forall ix, valid Sw ix -> Rabs (at_ w' ix - at_ w ix) < M).
    { intros ix Hix. rewrite <- (unravel_ravel Sw ix Hix). unfold M.
      assert (Rl : (ravel Sw ix < prodn Sw)%nat) by now apply ravel_lt.
      pose proof (rsum_ge_term (prodn Sw) (ravel Sw ix) (fun k => Rabs (at_ w' (unravel Sw k) - at_ w (unravel Sw k))) Rl (fun i _ => Rabs_pos _)) as X. cbn beta in X. lra. }
    set (t := Rmin 1 (e / (2 * M))). assert (Pe : 0 < e / (2 * M)) by (apply Rdiv_lt_0_compat; lra).
    assert (Ht : 0 < t <= 1) by (unfold t; split; [apply Rmin_glb_lt; lra|apply Rmin_l]).
    assert (Ht' : t * M < e).
    { assert (t <= e / (2 * M)) by apply Rmin_r. apply Rle_lt_trans with (e / (2 * M) * M); [apply Rmult_le_compat_r; lra|].
      replace (e / (2 * M) * M) with (e / 2) by (field; lra). lra. }
    specialize (Loc (blend (1 - t) w t w') Hw). specialize (Cvx w w' t Hw Hw' ltac:(lra)).
    assert (loss w <= loss (blend (1 - t) w t w')); [|nra]. apply Loc. intros ix Hix. cbn.
    replace ((1 - t) * at_ w ix + t * at_ w' ix - at_ w ix) with (t * (at_ w' ix - at_ w ix)) by ring.
    rewrite Rabs_mult, (Rabs_pos_eq t) by lra. specialize (Bd ix Hix). nra.
Qed.
Print Assumptions C86_regression_no_spurious_minimum.

(** Product layers: two settings of the weights without any error, half-way between them there is one. *)
Theorem C86_product_layers_not_convex_refuted : forall c n S, ~ sum_class c -> (1 <= n)%nat -> (1 <= S)%nat ->
  exists l w w' x y, held l /\ pw_cls l = c /\ shape w = shape (pw_w l) /\ shape w' = shape (pw_w l) /\ shape x = [1%nat; pw_in l] /\ forall name,
    (exists log, regression_eval_step (Piecewise_forward (with_w l w) x) y name = Ok (Some 0, log)) /\
    (exists log, regression_eval_step (Piecewise_forward (with_w l w') x) y name = Ok (Some 0, log)) /\
    (exists loss log, regression_eval_step (Piecewise_forward (with_w l (blend (1/2) w (1/2) w')) x) y name = Ok (Some loss, log) /\ 0 < loss).
Proof.
  intros c n S Hc Hn HS. set (l := new_piecewise c n 2 1 S 2 1 None (fun _ _ => 0)).
  assert (Hl : held l) by (apply new_held; lia).
  set (ab := fun a b : R => mkT (shape (pw_w l)) (fun ix => if Nat.eqb (nth 1 ix 0%nat) 0 then a else b)).
  set (x := one_sample 2 (fun _ => 0)). set (y := mkT [1; 1]%nat (fun _ => 1)).
  assert (V : forall w a b name, shape w = shape (pw_w l) -> (forall p, at_ w [0; 0; p]%nat = a) -> (forall p, at_ w [0; 1; p]%nat = b) ->
     exists log, regression_eval_step (Piecewise_forward (with_w l w) x) y name = Ok (Some ((a * b + a + b - 1) ^ 2), log)).
  { intros w a b name Hw Ha Hb. assert (Hlw : held (with_w l w)) by now apply with_w_held.
    destruct (forward_rows (with_w l w) x 1 Hlw eq_refl) as (z & Ez & Sz & Vz). rewrite Ez.
    destruct (C73_regression_loss z y name 1) as (r & E & Rl & _); auto; [unfold numel; rewrite Sz; reflexivity|].
    exists [((name ++ "_loss")%string, Some r)]. rewrite E. do 2 f_equal. f_equal. f_equal. rewrite Rl. cbn [rsum]. unfold entry_at. rewrite Sz. cbn [unravel prodn y shape at_ pw_out with_w l new_piecewise].
    change (0 / (1 * 1))%nat with 0%nat. change (0 mod (1 * 1))%nat with 0%nat. cbn [Nat.div Nat.modulo fst Nat.divmod].
    rewrite Vz by (cbn; lia). rewrite layer_out_eq by (auto; cbn; lia).
    assert (A : alpha_of (pw_cls (with_w l w)) = Some 1) by (cbn; destruct c; try reflexivity; exfalso; apply Hc; [now left|now right]).
    rewrite A. change (pw_in (with_w l w)) with 2%nat. cbn [combine_links rprod rsum].
    rewrite (link_const (with_w l w) 0 0 a) by (auto; intros; apply Ha). rewrite (link_const (with_w l w) 0 1 b) by (auto; intros; apply Hb). cbn. field. }
  exists l, (ab 1 0), (ab 0 1), x, y. split; auto. split; auto. split; auto. split; auto. split; auto. intros name. split; [|split].
  - destruct (V (ab 1 0) 1 0 name) as (log & E); auto. exists log. rewrite E. do 3 f_equal. ring.
  - destruct (V (ab 0 1) 0 1 name) as (log & E); auto. exists log. rewrite E. do 3 f_equal. ring.
  - destruct (V (blend (1/2) (ab 1 0) (1/2) (ab 0 1)) (1/2) (1/2) name) as (log & E); auto; try (intros p; cbn; field).
    eexists _, log. split; [exact E|]. lra.
Qed.
Print Assumptions C86_product_layers_not_convex_refuted.

(** A continuous layer with 3 nodes, 2 inputs, 1 output and 4 segments, trained on 5 samples. *)
Example C86_case : forall x y, shape x = [5; 2]%nat -> shape y = [5; 1]%nat ->
  exists loss : tensor R -> R, (forall w, shape w = [1; 2; 9]%nat ->
      regression_eval_step (Piecewise_forward (with_w (new_piecewise PiecewisePolynomial 3 2 1 4 2 1 None (fun _ _ => 1/2)) w) x) y "train"
      = Ok (Some (loss w), [("train_loss"%string, Some (loss w))])) /\
    forall w e, shape w = [1; 2; 9]%nat -> 0 < e ->
      (forall w', shape w' = [1; 2; 9]%nat -> (forall ix, valid [1; 2; 9]%nat ix -> Rabs (at_ w' ix - at_ w ix) < e) -> loss w <= loss w') ->
      forall w', shape w' = [1; 2; 9]%nat -> loss w <= loss w'.
Proof.
  intros x y Hx Hy. set (l := new_piecewise PiecewisePolynomial 3 2 1 4 2 1 None (fun _ _ => 1/2)).
  assert (Hl : held l) by (apply new_held; lia).
  destruct (C86_regression_no_spurious_minimum _ _ _ y "train" (C86_piecewise_linear l x 5 Hl (or_introl eq_refl) Hx)) as (loss & E & _ & _ & M).
  - unfold numel. now rewrite Hy.
  - cbn. lia.
  - exists loss. split; [exact E|exact M].
Qed.
