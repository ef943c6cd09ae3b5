(** * Product units and Fourier layers (C27, C28, and C12 for Product). *)
From Coq Require Import Reals ZArith List Lia Lra Psatz.
From Verif Require Import Spec Tensor Utils LagrangePolynomial Basis PolynomialLayers ProductLayer Observe
  SumFacts TensorFacts LagrangeFacts LayerFacts SegmentFacts LayerProofs RefineFacts.
Import ListNotations.
Local Open Scope R_scope.

(** ** C27 *)
Lemma cos_periodZ a k : cos (a + 2 * PI * IZR k) = cos a.
Proof.
  rewrite cos_plus. replace (2 * PI * IZR k) with (IZR (2 * k) * PI) by (rewrite mult_IZR; ring).
  assert (S0 : sin (IZR (2 * k) * PI) = 0) by (apply sin_eq_0_1; eauto).
  assert (C0 : cos (IZR (2 * k) * PI) = 1).
  { replace (IZR (2 * k) * PI) with (2 * (IZR k * PI)) by (rewrite mult_IZR; ring).
    rewrite cos_2a_sin. assert (sin (IZR k * PI) = 0) by (apply sin_eq_0_1; eauto). nra. }
  rewrite S0, C0. ring.
Qed.
Lemma sin_periodZ a k : sin (a + 2 * PI * IZR k) = sin a.
Proof.
  rewrite sin_plus. replace (2 * PI * IZR k) with (IZR (2 * k) * PI) by (rewrite mult_IZR; ring).
  assert (S0 : sin (IZR (2 * k) * PI) = 0) by (apply sin_eq_0_1; eauto).
  assert (C0 : cos (IZR (2 * k) * PI) = 1).
  { replace (IZR (2 * k) * PI) with (2 * (IZR k * PI)) by (rewrite mult_IZR; ring).
    rewrite cos_2a_sin. assert (sin (IZR k * PI) = 0) by (apply sin_eq_0_1; eauto). nra. }
  rewrite S0, C0. ring.
Qed.
Lemma fourier_periodic len x j k : len <> 0 -> fourier_call len (x + len * IZR k) j = fourier_call len x j.
Proof.
  intros Hl. unfold fourier_call. destruct (Nat.eqb j 0); [lra|].
  set (i := ((j + 1) / 2)%nat). cbv zeta.
  replace (2 * PI * INR i * (x + len * IZR k) / len) with (2 * PI * INR i * x / len + 2 * PI * IZR (Z.of_nat i * k))
    by (rewrite mult_IZR, <- INR_IZR_INZ; field; auto).
  destruct (Nat.eqb (j mod 2) 0); [apply cos_periodZ|apply sin_periodZ].
Qed.
Lemma fourier_bound len x j : Rabs (fourier_call len x j) <= 1.
Proof.
  unfold fourier_call. destruct (Nat.eqb j 0); [rewrite Rabs_right; lra|]. cbv zeta.
  destruct (Nat.eqb (j mod 2) 0); apply Rabs_le; [apply COS_bound|apply SIN_bound].
Qed.

(** [w]: any content of the weights. *)
Theorem C27_fourier_periodic : forall n I O len mag per draw w x x' B,
  (1 <= n)%nat -> len <> 0 -> shape w = [O; I; n] -> shape x = [B; I] -> shape x' = [B; I] ->
  (forall b i, (b < B)%nat -> (i < I)%nat -> exists k, at_ x' [b; i] = at_ x [b; i] + len * IZR k) ->
  exists y y', Function_forward (with_fw (FourierSeries n I O len mag per draw) w) x = Ok y /\
    Function_forward (with_fw (FourierSeries n I O len mag per draw) w) x' = Ok y' /\
    shape y = [B; O] /\ teq y y'.
Proof.
  intros n I O len mag per draw w x x' B Hn Hl Hw Hx Hx' Hk. unfold with_fw, FourierSeries. cbn [f_n f_basis f_periodicity].
  destruct (function_spec n (FourierBasis len) None w x B I O Hn Hw Hx) as (y & E & Hs & Hy).
  destruct (function_spec n (FourierBasis len) None w x' B I O Hn Hw Hx') as (y' & E' & Hs' & Hy').
  exists y, y'. do 3 (split; [auto|]). split; [congruence|]. intros ix Hv. rewrite Hs in Hv.
  apply valid2 in Hv. destruct Hv as (b & o & -> & Hb & Ho). rewrite Hy, Hy' by auto.
  apply rsum_ext. intros i Hi. apply rsum_ext. intros j Hj. f_equal. cbn.
  destruct (Hk b i Hb Hi) as (k & ->). symmetry. now apply fourier_periodic.
Qed.
Print Assumptions C27_fourier_periodic.

Theorem C27_fourier_bounded : forall n I O len mag per draw w x B y,
  (1 <= n)%nat -> shape w = [O; I; n] -> shape x = [B; I] ->
  Function_forward (with_fw (FourierSeries n I O len mag per draw) w) x = Ok y ->
  forall b o, (b < B)%nat -> (o < O)%nat ->
    Rabs (at_ y [b; o]) <= rsum I (fun i => rsum n (fun k => Rabs (at_ w [o; i; k]))).
Proof.
  intros n I O len mag per draw w x B y Hn Hw Hx Ey b o Hb Ho. unfold with_fw, FourierSeries in Ey. cbn [f_n f_basis f_periodicity] in Ey.
  destruct (function_spec n (FourierBasis len) None w x B I O Hn Hw Hx) as (y0 & E & Hs & Hy).
  rewrite Ey in E. injection E as <-. rewrite Hy by auto.
  eapply Rle_trans; [apply rsum_abs|]. apply rsum_le. intros i Hi.
  eapply Rle_trans; [apply rsum_abs|]. apply rsum_le. intros k Hk.
  rewrite Rabs_mult. cbn. pose proof (fourier_bound len (at_ x [b; i]) k). pose proof (Rabs_pos (at_ w [o; i; k])). nra.
Qed.
Print Assumptions C27_fourier_bounded.

(** What the layer computes: a truncated Fourier series per link (constant term one half), whatever
    weight_magnitude and periodicity were asked for. *)
Theorem C27_fourier_series : forall n I O len mag per draw w x B,
  shape w = [O; I; 2 * n + 1]%nat -> shape x = [B; I] ->
  exists y, Function_forward (with_fw (FourierSeries (2 * n + 1) I O len mag per draw) w) x = Ok y /\ shape y = [B; O] /\
  forall b o, (b < B)%nat -> (o < O)%nat ->
    at_ y [b; o] = rsum I (fun i =>
      at_ w [o; i; 0%nat] / 2 +
      rsum n (fun f => at_ w [o; i; 2 * f + 1]%nat * sin (2 * PI * INR (f + 1) * at_ x [b; i] / len)
                     + at_ w [o; i; 2 * f + 2]%nat * cos (2 * PI * INR (f + 1) * at_ x [b; i] / len))).
Proof.
  intros n I O len mag per draw w x B Hw Hx. unfold with_fw, FourierSeries. cbn [f_n f_basis f_periodicity].
  destruct (function_spec (2 * n + 1) (FourierBasis len) None w x B I O ltac:(lia) Hw Hx) as (y & E & Hs & Hy).
  exists y. do 2 (split; [auto|]). intros b o Hb Ho. rewrite Hy by auto. apply rsum_ext. intros i Hi.
  cbn [apply_periodicity FourierBasis call]. set (v := at_ x [b; i]). clearbody v. clear - n.
  induction n as [|n IH].
  - cbn. unfold fourier_call. cbn. lra.
  - replace (2 * S n + 1)%nat with (S (S (2 * n + 1))) by lia. cbn [rsum]. rewrite IH. cbn [rsum].
    rewrite !Rplus_assoc. f_equal. f_equal.
    unfold fourier_call.
    replace (2 * n + 1 =? 0)%nat with false by (symmetry; apply Nat.eqb_neq; lia).
    replace (S (2 * n + 1) =? 0)%nat with false by (symmetry; apply Nat.eqb_neq; lia).
    cbv zeta.
    replace ((2 * n + 1 + 1) / 2)%nat with (n + 1)%nat by (apply (Nat.div_unique _ 2 _ 0); lia).
    replace ((S (2 * n + 1) + 1) / 2)%nat with (n + 1)%nat by (apply (Nat.div_unique _ 2 _ 1); lia).
    replace ((2 * n + 1) mod 2)%nat with 1%nat by (apply (Nat.mod_unique _ 2 n); lia).
    replace ((S (2 * n + 1)) mod 2)%nat with 0%nat by (apply (Nat.mod_unique _ 2 (n + 1)); lia).
    cbn [Nat.eqb]. replace (S (2 * n + 1)) with (2 * n + 2)%nat by lia. ring.
Qed.
Print Assumptions C27_fourier_series.

(** The weight magnitude and the periodicity passed to the constructor have no effect at all; the initial weights are what
    magnitude 1 gives. *)
Theorem C27_arguments_without_effect : forall n I O len mag mag' per per' draw, (1 <= n)%nat -> (1 <= I)%nat ->
  (forall o i, 0 <= draw o i < 1) ->
  FourierSeries n I O len mag per draw = FourierSeries n I O len mag' per' draw /\ 
  shape (f_w (FourierSeries n I O len mag per draw)) = [O; I; n] /\ 
  forall o i k, (o < O)%nat -> (i < I)%nat -> (k < n)%nat -> 0 <= at_ (f_w (FourierSeries n I O len mag per draw)) [o; i; k] < 1 / INR I.
Proof.
  intros n I O len mag mag' per per' draw Hn HI Hd. split; [reflexivity|]. split; [reflexivity|]. intros o i k Ho Hi Hk. cbn.
  assert (P : 0 < INR I) by (apply lt_0_INR; lia). specialize (Hd o i). unfold Rdiv. apply Rinv_0_lt_compat in P. split; nra.
Qed.
Print Assumptions C27_arguments_without_effect.

Example C27_initial_case : at_ (f_w (FourierSeries 3 2 1 2 7 (Some 2) (fun _ _ => 1/2))) [0; 1; 2]%nat = 1/4.
Proof. cbn. field. Qed.
Example C27_example : shape (f_w (FourierSeries 3 2 1 2 1 (Some 2) (fun _ _ => 1))) = [1; 2; 3]%nat
  /\ fourier_call 2 (1/2) 1 = 1.
Proof. split; [reflexivity|]. unfold fourier_call. cbn. replace (2 * PI * 1 * (1 / 2) / 2) with (PI / 2) by field. apply sin_PI2. Qed.

(** ** C28 *)
Lemma pow2_pos n : (1 <= 2 ^ n)%nat.
Proof. induction n; cbn; lia. Qed.

Lemma all_products n f : rsum (2 ^ n) (fun m => rprod n (fun i => if Nat.testbit m i then f i else 1)) = rprod n (fun i => f i + 1).
Proof.
  induction n; [cbn; lra|]. cbn [Nat.pow]. replace (2 * 2 ^ n)%nat with (2 ^ n + 2 ^ n)%nat by lia. rewrite rsum_add.
  cbn [rprod]. rewrite <- IHn. rewrite Rmult_plus_distr_l, Rmult_1_r, Rplus_comm.
  assert (TB : forall m, (m < 2 ^ n)%nat -> Nat.testbit m n = false).
  { intros m Hm. destruct m; [apply Nat.bits_0|]. apply Nat.bits_above_log2. apply Nat.log2_lt_pow2; lia. }
  f_equal.
  - rewrite <- rsum_scal_r. apply rsum_ext. intros m Hm.
    assert (T : Nat.testbit (2 ^ n + m) n = true).
    { rewrite Nat.testbit_eqb. rewrite <- (Nat.mul_1_l (2 ^ n)) at 1. rewrite div_add_l by auto. reflexivity. }
    rewrite T. f_equal. apply rprod_ext. intros i Hi.
    assert (T2 : Nat.testbit (2 ^ n + m) i = Nat.testbit m i).
    { rewrite !Nat.testbit_eqb. f_equal. replace (2 ^ n)%nat with (2 ^ (n - i - 1) * 2 * 2 ^ i)%nat.
      - rewrite Nat.div_add_l by (pose proof (pow2_pos i); lia).
        rewrite Nat.add_comm, Nat.mod_add; lia.
      - rewrite <- (Nat.pow_1_r 2) at 2. rewrite <- !Nat.pow_add_r. f_equal. lia. }
    now rewrite T2.
  - apply rsum_ext. intros m Hm. rewrite TB by auto. ring.
Qed.

Lemma sum_of_products_eq n f : rprod n (fun i => f i + 1) - 1 = sum_of_products n f.
Proof.
  rewrite <- all_products. unfold sum_of_products.
  pose proof (pow2_pos n). replace (2 ^ n)%nat with (S (2 ^ n - 1)) at 1 by lia.
  rewrite rsum_S_l. rewrite rprod_one by (intros; now rewrite Nat.bits_0).
  replace (rsum (2 ^ n - 1) (fun i => rprod n (fun i0 => if Nat.testbit (S i) i0 then f i0 else 1)))
    with (rsum (2 ^ n - 1) (fun m => rprod n (fun i => if Nat.testbit (m + 1) i then f i else 1))).
  - lra.
  - apply rsum_ext. intros i Hi. now rewrite Nat.add_1_r.
Qed.

Lemma product_spec l x B : shape (pr_weight l) = [pr_out l; pr_in l] -> shape x = [B; pr_in l] ->
  forall bias, pr_bias l = Some bias -> shape bias = [pr_out l] ->
  exists y, Product_forward l x = Ok y /\ shape y = [B; pr_out l] /\
  forall b o, (b < B)%nat -> (o < pr_out l)%nat ->
    let f i := at_ (pr_weight l) [o; i] * apply_periodicity (pr_periodicity l) (at_ x [b; i]) in
    at_ y [b; o] = rprod (pr_in l) (fun i => f i + 1) - 1 - (1 - pr_alpha l) * rsum (pr_in l) f + at_ bias [o].
Proof.
  intros Hw Hx bias Hb Hbs. unfold Product_forward, einsum2. cbn [tmap shape]. rewrite Hw, Hx. cbn. rewrite bsize_refl. cbn.
  rewrite Hb. eexists; split; [reflexivity|]. split; [reflexivity|]. intros b o Hb' Ho.
  cbn [at_ tmap2 tmap prod_dim1 sum_dim1 shape nth]. cbn.
  rewrite !(bc_id B), !(bc_id (pr_out l)) by auto.
  rewrite (rprod_ext _ _ (fun i => at_ (pr_weight l) [o; i] * apply_periodicity (pr_periodicity l) (at_ x [b; i]) + 1))
    by (intros; rewrite bc_id by auto; ring).
  rewrite (rsum_ext _ _ (fun i => at_ (pr_weight l) [o; i] * apply_periodicity (pr_periodicity l) (at_ x [b; i])))
    by (intros; rewrite bc_id by auto; ring).
  ring.
Qed.

(** The Product layer.  With alpha = 1 every sub-product of the weighted inputs is kept, with
    alpha = 0 the linear ones are removed. *)
Theorem C28_product_layer : forall l x B bias,
  shape (pr_weight l) = [pr_out l; pr_in l] -> shape x = [B; pr_in l] ->
  pr_bias l = Some bias -> shape bias = [pr_out l] -> pr_periodicity l = None ->
  exists y, Product_forward l x = Ok y /\ shape y = [B; pr_out l] /\
  forall b o, (b < B)%nat -> (o < pr_out l)%nat ->
    let f i := at_ (pr_weight l) [o; i] * at_ x [b; i] in
    at_ y [b; o] = sum_of_products (pr_in l) f - (1 - pr_alpha l) * rsum (pr_in l) f + at_ bias [o].
Proof.
  intros l x B bias Hw Hx Hb Hbs Hp. destruct (product_spec l x B Hw Hx bias Hb Hbs) as (y & E & Hs & V).
  exists y. do 2 (split; auto). intros b o Hb' Ho f. rewrite V by auto. rewrite Hp. cbn [apply_periodicity].
  rewrite <- (sum_of_products_eq (pr_in l) f). reflexivity.
Qed.
Print Assumptions C28_product_layer.

Example C28_product_example : exists y,
  Product_forward (mkProduct 2 1 (mkT [1; 2]%nat (fun ix => INR (1 + nth 1 ix 0%nat))) (Some (mkT [1%nat] (fun _ => 10))) 0 None)
    (mkT [1; 2]%nat (fun _ => 3)) = Ok y /\ at_ y [0; 0]%nat = 28.
Proof. eexists; split; [reflexivity|]. cbn. lra. Qed.

(** A new layer: every link has a weight of its own, every output a bias of its own. *)
Theorem C28_new_product : forall I O alpha dw db x B, shape x = [B; I] ->
  exists y, Product_forward (new_product I O true alpha None dw db) x = Ok y /\ shape y = [B; O] /\
  forall b o, (b < B)%nat -> (o < O)%nat ->
    let f i := dw o i * at_ x [b; i] in
    at_ y [b; o] = sum_of_products I f - (1 - alpha) * rsum I f + db o.
Proof.
  intros I O alpha dw db x B Hx.
  apply (C28_product_layer (new_product I O true alpha None dw db) x B (mkT [O] (fun ix => db (nth 0 ix 0%nat)))); auto.
Qed.
Print Assumptions C28_new_product.

(** Without bias the layer can be built but never called. *)
Theorem C28_product_without_bias_fails : forall I O alpha per dw db x B,
  shape x = [B; I] -> Product_forward (new_product I O false alpha per dw db) x = Err TypeError.
Proof.
  intros I O alpha per dw db x B Hx. unfold Product_forward, einsum2. cbn [tmap shape new_product pr_weight]. rewrite Hx. cbn.
  rewrite bsize_refl. reflexivity.
Qed.
Print Assumptions C28_product_without_bias_fails.

(** The product interpolations with one weight tensor for all samples and with one per sample; the
    linear part enters with the opposite sign of the Product layer's. *)
Theorem C28_basis_prod : forall n bs alpha x w wf B I O,
  (1 <= n)%nat -> shape x = [B; I] -> shape w = [B; I; O; n] -> shape wf = [O; I; n] ->
  exists y yf, BasisProd_interpolate n bs alpha x w = Ok y /\ BasisFlatProd_interpolate n bs alpha x wf = Ok yf /\
  shape y = [B; O] /\ shape yf = [B; O] /\
  forall b o, (b < B)%nat -> (o < O)%nat ->
    let f i := rsum n (fun k => call bs (at_ x [b; i]) k * at_ w [b; i; o; k]) in
    let ff i := rsum n (fun k => call bs (at_ x [b; i]) k * at_ wf [o; i; k]) in
    at_ y [b; o] = sum_of_products I f + (1 - alpha) * rsum I f /\
    at_ yf [b; o] = sum_of_products I ff + (1 - alpha) * rsum I ff.
Proof.
  intros n bs alpha x w wf B I O Hn Hx Hw Hwf. unfold BasisProd_interpolate, BasisFlatProd_interpolate, stack_basis.
  destruct (Nat.eqb_spec n 0); [lia|]. cbn [rbind]. unfold einsum2. cbn [shape stack]. rewrite Hx, Hw, Hwf. cbn.
  rewrite !bsize_refl. cbn.
  eexists; eexists. split; [reflexivity|]. split; [reflexivity|]. do 2 (split; [reflexivity|]).
  intros b o Hb Ho. rewrite <- !sum_of_products_eq.
  cbn [tmap tmap2 prod_combine prod_last sum_last at_ shape removelast last app]. cbn.
  split; (f_equal; [f_equal; apply rprod_ext; intros i Hi; f_equal|f_equal; apply rsum_ext; intros i Hi]);
    apply rsum_ext; intros k Hk; rewrite !(bc_id B), !(bc_id I), !(bc_id O), !(bc_id n) by auto; reflexivity.
Qed.
Print Assumptions C28_basis_prod.

(** alpha = 0 does not subtract the linear part of these units, it doubles it; the Product layer
    with the same alpha does subtract it. *)
Theorem C28_alpha_sign_differs : forall n bs x w I, (1 <= n)%nat -> shape x = [1%nat; I] -> shape w = [1%nat; I; n] ->
  let f i := rsum n (fun k => call bs (at_ x [0%nat; i]) k * at_ w [0%nat; i; k]) in
  exists y0 y1, BasisFlatProd_interpolate n bs 0 x w = Ok y0 /\ BasisFlatProd_interpolate n bs 1 x w = Ok y1 /\
    at_ y1 [0; 0]%nat = sum_of_products I f /\ at_ y0 [0; 0]%nat = at_ y1 [0; 0]%nat + rsum I f.
Proof.
  intros n bs x w I Hn Hx Hw f.
  destruct (C28_basis_prod n bs 0 x (mkT [1%nat; I; 1%nat; n] (fun _ => 0)) w 1 I 1 Hn Hx eq_refl Hw) as (q0 & y0 & _ & E0 & _ & _ & V0).
  destruct (C28_basis_prod n bs 1 x (mkT [1%nat; I; 1%nat; n] (fun _ => 0)) w 1 I 1 Hn Hx eq_refl Hw) as (q1 & y1 & _ & E1 & _ & _ & V1).
  exists y0, y1. do 2 (split; [auto|]). destruct (V0 0%nat 0%nat (le_n _) (le_n _)) as [_ ->]. destruct (V1 0%nat 0%nat (le_n _) (le_n _)) as [_ ->].
  cbv zeta. fold f. lra.
Qed.
Print Assumptions C28_alpha_sign_differs.

(** The piecewise layers in terms of their links. *)
Lemma one_link_held l o i : held l -> held (one_link l o i).
Proof.
  intros H. apply held_wf in H. destruct H as (Hn & HS & _). unfold one_link. apply with_w_held; [apply new_held; lia|reflexivity].
Qed.
Lemma one_link_link l o i v : held l -> layer_out (one_link l o i) (fun _ => v) 0 = link l o i v.
Proof.
  intros H. rewrite layer_out_sum; [|now apply one_link_held|destruct l as [[] ]; cbn; [left|left|right|right]; reflexivity|cbn; lia].
  change (pw_in (one_link l o i)) with 1%nat. cbn [rsum]. rewrite Rplus_0_l.
  unfold link, link0, piece. rewrite (seg_same l), (x_local_same l) by reflexivity.
  change (pw_n (one_link l o i)) with (pw_n l). change (pw_periodicity (one_link l o i)) with (pw_periodicity l).
  apply interp_ext. intros k Hk. unfold seg_weight. change (pw_n (one_link l o i)) with (pw_n l).
  replace (pw_stride (pw_cls (one_link l o i)) (pw_n l)) with (pw_stride (pw_cls l) (pw_n l)) by (cbn; destruct (pw_cls l); reflexivity).
  reflexivity.
Qed.

Theorem C28_piecewise_links : forall l v o, held l -> (o < pw_out l)%nat ->
  let f i := layer_out (one_link l o i) (fun _ => v i) 0 in
  layer_out l v o =
    match pw_cls l with
    | PiecewisePolynomial | PiecewiseDiscontinuousPolynomial => rsum (pw_in l) f
    | PiecewisePolynomialProd | PiecewiseDiscontinuousPolynomialProd => sum_of_products (pw_in l) f
    end.
Proof.
  intros l v o H Ho f. rewrite layer_out_eq by auto.
  assert (E : forall i, link l o i (v i) = f i) by (intros; unfold f; rewrite one_link_link; auto).
  clearbody f. rewrite (combine_ext _ _ _ f (fun i _ => E i)). unfold combine_links.
  clear E. destruct (pw_cls l); cbn [alpha_of]; auto; rewrite <- sum_of_products_eq; lra.
Qed.
Print Assumptions C28_piecewise_links.

(** With a single input a product unit is a sum unit. *)
Theorem C28_single_input : forall l v o, held l -> (o < pw_out l)%nat -> pw_in l = 1%nat ->
  layer_out l v o = layer_out (one_link l o 0) (fun _ => v 0%nat) 0.
Proof.
  intros l v o H Ho H1. pose proof (C28_piecewise_links l v o H Ho) as E. cbv zeta in E. rewrite E, H1.
  set (g := fun i => layer_out (one_link l o i) (fun _ => v i) 0). change (layer_out (one_link l o 0) (fun _ => v 0%nat) 0) with (g 0%nat).
  clearbody g. clear E. destruct (pw_cls l); unfold sum_of_products; cbn; lra.
Qed.
Print Assumptions C28_single_input.

(** ** C12 for the Product layer. *)
Theorem C12_samples_independent_product : forall l x x' y y' B B' b b' o bias,
  shape (pr_weight l) = [pr_out l; pr_in l] -> pr_bias l = Some bias -> shape bias = [pr_out l] ->
  shape x = [B; pr_in l] -> shape x' = [B'; pr_in l] -> (b < B)%nat -> (b' < B')%nat -> (o < pr_out l)%nat ->
  (forall i, (i < pr_in l)%nat -> at_ x [b; i] = at_ x' [b'; i]) ->
  Product_forward l x = Ok y -> Product_forward l x' = Ok y' ->
  at_ y [b; o] = at_ y' [b'; o].
Proof.
  intros l x x' y y' B B' b b' o bias Hw Hbi Hbs Hx Hx' Hb Hb' Ho E Hy Hy'.
  destruct (product_spec l x B Hw Hx bias Hbi Hbs) as (y1 & E1 & _ & V1).
  destruct (product_spec l x' B' Hw Hx' bias Hbi Hbs) as (y2 & E2 & _ & V2).
  rewrite Hy in E1. injection E1 as <-. rewrite Hy' in E2. injection E2 as <-.
  rewrite V1, V2 by auto. f_equal. f_equal; [f_equal; apply rprod_ext; intros i Hi; now rewrite E|].
  f_equal. apply rsum_ext. intros i Hi. now rewrite E.
Qed.
Print Assumptions C12_samples_independent_product.
