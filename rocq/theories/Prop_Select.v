(** * Networks built from a configuration by modules.py (C68-C71, C74). *)
From Coq Require Import String Reals ZArith List Bool Lia Lra.
From Verif Require Import Spec Tensor Utils PolynomialLayers LagrangeND Layers Vae Networks Expand Convolution ConvNetworks Observe ObserveConv ObserveNet
  ObserveConvNet Modules ObserveModules SumFacts TensorFacts ConvFacts ConvNetFacts Prop_ConvNet Prop_Tail.
Import ListNotations.
Local Open Scope R_scope.

(** ** What a selected convolutional network is made of *)

Lemma key_ok {A} (v : option A) a : key v = Ok a -> v = Some a.
Proof. destruct v; cbn; congruence. Qed.

Lemma conv_arguments_ok training n sc a : conv_arguments training n sc = Ok a ->
  nt_channels n = Some (cn_channels a) /\ nt_layer_type n = cn_layer_type a /\ cn_normalization a = Some (LazyBatchNorm1d_of training sc).
Proof.
  unfold conv_arguments. intros E.
  destruct (nt_layer_type n) as [lt|], (nt_n n), (nt_channels n), (nt_segments n), (nt_kernel_size n), (nt_periodicity n), (nt_stride n); cbn [key rbind] in E; try discriminate.
  injection E as <-. auto.
Qed.

Lemma selected_conv training g u draw s sc c m : select_network training g u draw s sc c = Ok m -> conv_model m = true ->
  exists a, conv_arguments training (c_net c) sc = Ok a /\
    cn_stages a (length (cn_kernel_size a)) (fun i t c => high_order_convolution_layers t c (u i) (draw i)) = Ok (stages_of m).
Proof.
  unfold select_network. intros E Cm. destruct (normalization_of training (c_net c) s) as [nm|]; cbn [rbind] in E; [|discriminate].
  destruct (key (nt_model_type (c_net c))) as [mt|]; cbn [rbind] in E; [|discriminate].
  destruct (String.eqb mt "high_order_input").
  { destruct (high_order_input g c nm []) as [(r, h)|]; cbn [rbind] in E; [|discriminate]. injection E as <-. discriminate. }
  destruct (String.eqb mt "high_order").
  { destruct (high_order g (c_net c) nm []) as [(r, h)|]; cbn [rbind] in E; [|discriminate]. injection E as <-. discriminate. }
  destruct (String.eqb mt "high_order_conv").
  { destruct (conv_arguments training (c_net c) sc) as [a|]; cbn [rbind] in E; [|discriminate]. exists a. split; [reflexivity|].
    unfold new_conv_net in E. destruct (cn_stages _ _ _) as [sts|]; cbn [rbind] in E; [|discriminate].
    destruct (key (nt_out_features (c_net c))); cbn [rbind] in E; [|discriminate]. injection E as <-. reflexivity. }
  destruct (String.eqb mt "high_order_tail_focus").
  { destruct (conv_arguments training (c_net c) sc) as [a|]; cbn [rbind] in E; [|discriminate]. exists a. split; [reflexivity|].
    destruct (key (nt_focus (c_net c))) as [f|]; cbn [rbind] in E; [|discriminate].
    unfold new_tail_net in E. destruct (cn_stages _ _ _) as [sts|]; cbn [rbind] in E; [|discriminate].
    destruct (key (nt_out_features (c_net c))); cbn [rbind] in E; [|discriminate].
    destruct (key (nt_features (c_net c))); cbn [rbind] in E; [|discriminate].
    destruct (compute_sizes _ _); cbn [rbind] in E; [|discriminate]. injection E as <-. reflexivity. }
  destruct (key (c_model_type c)); cbn in E; discriminate.
Qed.

Lemma selected_stage training g u draw s sc c m i st : select_network training g u draw s sc c = Ok m -> conv_model m = true ->
  nth_error (stages_of m) i = Some st ->
  exists chs k, nt_channels (c_net c) = Some chs /\ nth_error chs (i + 1) = Some k /\
    st_normal st = Some (batch_norm training (INR k) (sc k)).
Proof.
  intros E Cm Es. destruct (selected_conv _ _ _ _ _ _ _ _ E Cm) as (a & Ea & St). destruct (conv_arguments_ok _ _ _ _ Ea) as (Ch & _ & Nm).
  unfold cn_stages in St. destruct (cn_check a (length (cn_kernel_size a))); cbn [rbind] in St; [|discriminate].
  apply collect_spec in St. destruct St as (_ & V). specialize (V i st Es). cbn [Nat.add] in V. unfold cn_stage in V.
  destruct (cn_layer a (length (cn_kernel_size a)) i) as [(t, ca)|]; cbn [rbind] in V; [|discriminate].
  destruct (high_order_convolution_layers _ _ _ _) as [l|]; cbn [rbind] in V; [|discriminate]. rewrite Nm in V.
  destruct (py_get (Some (cn_channels a)) (i + 1)) as [k|] eqn:Ek; cbn [rbind] in V; [|discriminate]. injection V as <-.
  exists (cn_channels a), k. split; [exact Ch|]. split; [|reflexivity]. cbn in Ek. destruct (nth_error (cn_channels a) (i + 1)); congruence.
Qed.

(** ** C68: batch normalisation with the number of channels as epsilon *)

(** In eval mode every convolution of a network from select_network is followed by a division by the square root of the
    running variance plus the number of its channels: the value torch documents as a small constant for numerical stability. *)
Theorem C68_eval : forall g u draw s sc c m i st, select_network false g u draw s sc c = Ok m -> conv_model m = true ->
  nth_error (stages_of m) i = Some st ->
  exists chs k f, nt_channels (c_net c) = Some chs /\ nth_error chs (i + 1) = Some k /\ st_normal st = Some f /\
    forall z B L, shape z = [B; k; L] -> exists y, f z = Ok y /\ shape y = [B; k; L] /\
      forall b ch l, at_ y [b; ch; l] =
        (at_ z [b; ch; l] - bn_mean (sc k) ch) / sqrt (bn_var (sc k) ch + INR k) * bn_weight (sc k) ch + bn_bias (sc k) ch.
Proof.
  intros g u draw s sc c m i st E Cm Es. destruct (selected_stage _ _ _ _ _ _ _ _ _ _ E Cm Es) as (chs & k & Ch & Ek & Nm).
  exists chs, k, (batch_norm false (INR k) (sc k)). split; [exact Ch|]. split; [exact Ek|]. split; [exact Nm|].
  intros z B L Hz. unfold batch_norm, batch_norm1d. rewrite Hz. eexists. split; [reflexivity|]. split; [reflexivity|]. reflexivity.
Qed.
Print Assumptions C68_eval.

(** A new network (running mean 0 and variance 1, weight 1, bias 0) divides its activations by sqrt(1 + channels). *)
Theorem C68_fresh : forall g u draw s c m i st, select_network false g u draw s (fun _ => bn_fresh) c = Ok m -> conv_model m = true ->
  nth_error (stages_of m) i = Some st ->
  exists chs k f, nt_channels (c_net c) = Some chs /\ nth_error chs (i + 1) = Some k /\ st_normal st = Some f /\
    forall z B L, shape z = [B; k; L] -> exists y, f z = Ok y /\ shape y = [B; k; L] /\
      forall b ch l, at_ y [b; ch; l] = at_ z [b; ch; l] / sqrt (1 + INR k).
Proof.
  intros g u draw s c m i st E Cm Es. destruct (C68_eval _ _ _ _ _ _ _ _ _ E Cm Es) as (chs & k & f & Ch & Ek & Nm & V).
  exists chs, k, f. split; [exact Ch|]. split; [exact Ek|]. split; [exact Nm|]. intros z B L Hz.
  destruct (V z B L Hz) as (y & Ey & Sy & Vy). exists y. split; [exact Ey|]. split; [exact Sy|]. intros b ch l. rewrite Vy.
  cbn [bn_mean bn_var bn_weight bn_bias bn_fresh]. rewrite Rminus_0_r, Rmult_1_r, Rplus_0_r. reflexivity.
Qed.
Print Assumptions C68_fresh.

Lemma rsum2_affine B L (f : nat -> nat -> R) a d :
  rsum B (fun b => rsum L (fun l => f b l * a + d)) = rsum B (fun b => rsum L (fun l => f b l)) * a + INR B * INR L * d.
Proof.
  transitivity (rsum B (fun b => rsum L (fun l => f b l) * a + INR L * d)).
  { apply rsum_ext. intros b _. rewrite (rsum_plus L (fun l => f b l * a) (fun _ => d)), (rsum_scal_r L a (fun l => f b l)), rsum_const. ring. }
  rewrite (rsum_plus B (fun b => rsum L (fun l => f b l) * a) (fun _ => INR L * d)), (rsum_scal_r B a (fun b => rsum L (fun l => f b l))), rsum_const. ring.
Qed.
Lemma rsum2_scal B L (f : nat -> nat -> R) a : rsum B (fun b => rsum L (fun l => f b l * a)) = rsum B (fun b => rsum L (fun l => f b l)) * a.
Proof.
  transitivity (rsum B (fun b => rsum L (fun l => f b l) * a)); [|apply rsum_scal_r]. apply rsum_ext. intros b _. apply rsum_scal_r.
Qed.

(** In training mode the activations of a channel come out with variance weight^2 v / (v + channels), v being their variance
    before: not with variance weight^2, which is what normalising means, unless v is large against the number of channels. *)
Theorem C68_training : forall g u draw s sc c m i st, select_network true g u draw s sc c = Ok m -> conv_model m = true ->
  nth_error (stages_of m) i = Some st ->
  exists chs k f, nt_channels (c_net c) = Some chs /\ nth_error chs (i + 1) = Some k /\ st_normal st = Some f /\
    forall z B L, shape z = [B; k; L] -> (2 <= B * L)%nat -> exists y, f z = Ok y /\ shape y = [B; k; L] /\
      forall ch, (ch < k)%nat -> channel_mean y B L ch = bn_bias (sc k) ch /\
        channel_var y B L ch = bn_weight (sc k) ch ^ 2 * (channel_var z B L ch / (channel_var z B L ch + INR k)).
Proof.
  intros g u draw s sc c m i st E Cm Es. destruct (selected_stage _ _ _ _ _ _ _ _ _ _ E Cm Es) as (chs & k & Ch & Ek & Nm).
  exists chs, k, (batch_norm true (INR k) (sc k)). split; [exact Ch|]. split; [exact Ek|]. split; [exact Nm|].
  intros z B L Hz BL. unfold batch_norm, batch_norm1d_train. rewrite Hz. cbn [nth].
  destruct (Nat.eqb_spec (B * L) 1) as [C|_]; [lia|]. eexists. split; [reflexivity|]. split; [reflexivity|]. intros ch Hch.
  assert (N0 : 0 < INR B * INR L) by (rewrite <- mult_INR; apply lt_0_INR; lia).
  assert (Mz : batch_mean z ch = channel_mean z B L ch). { unfold batch_mean, over_batch, channel_mean. now rewrite Hz, mult_INR. }
  assert (Vz : batch_var z ch = channel_var z B L ch). { unfold batch_var, over_batch, channel_var. now rewrite Hz, Mz, mult_INR. }
  set (mu := channel_mean z B L ch) in *. set (v := channel_var z B L ch) in *.
  assert (V0 : 0 <= v).
  { unfold v, channel_var. apply Rmult_le_pos; [|apply Rlt_le, Rinv_0_lt_compat, N0]. apply rsum_nonneg. intros b _. apply rsum_nonneg. intros l _. apply pow2_ge_0. }
  assert (K0 : 1 <= INR k) by (change 1 with (INR 1); apply le_INR; lia).
  set (q := sqrt (v + INR k)). assert (Q0 : 0 < q) by (apply sqrt_lt_R0; lra). assert (Q2 : q * q = v + INR k) by (apply sqrt_sqrt; lra).
  set (y := mkT [B; k; L] _). set (w := bn_weight (sc k) ch). set (d := bn_bias (sc k) ch).
  assert (At : forall b l, at_ y [b; ch; l] = (at_ z [b; ch; l] - mu) * (/ q * w) + d).
  { intros b l. unfold y. cbn [at_ nth]. rewrite Mz, Vz. fold q w d. unfold Rdiv. lra. }
  assert (S0 : rsum B (fun b => rsum L (fun l => at_ z [b; ch; l] - mu)) = 0).
  { rewrite (rsum_ext B _ (fun b => rsum L (fun l => at_ z [b; ch; l] * 1 + - mu))).
    - rewrite (rsum2_affine B L (fun b l => at_ z [b; ch; l]) 1 (- mu)). unfold mu, channel_mean. field. split; intros A; rewrite A in N0; lra.
    - intros b _. apply rsum_ext. intros l _. lra. }
  assert (Nz : INR B * INR L <> 0) by lra.
  assert (My : channel_mean y B L ch = d).
  { unfold channel_mean. rewrite (rsum_ext B _ (fun b => rsum L (fun l => (at_ z [b; ch; l] - mu) * (/ q * w) + d))) by (intros b _; apply rsum_ext; intros l _; apply At).
    rewrite (rsum2_affine B L (fun b l => at_ z [b; ch; l] - mu)), S0, Rmult_0_l, Rplus_0_l.
    unfold Rdiv. rewrite (Rmult_comm (INR B * INR L) d), Rmult_assoc, Rinv_r, Rmult_1_r by exact Nz. reflexivity. }
  split; [exact My|]. unfold channel_var at 1. rewrite My.
  rewrite (rsum_ext B _ (fun b => rsum L (fun l => (at_ z [b; ch; l] - mu) ^ 2 * ((/ q * w) ^ 2)))).
  2:{ intros b _. apply rsum_ext. intros l _. rewrite At. ring. }
  rewrite (rsum2_scal B L (fun b l => (at_ z [b; ch; l] - mu) ^ 2)).
  assert (Ev : rsum B (fun b => rsum L (fun l => (at_ z [b; ch; l] - mu) ^ 2)) = v * (INR B * INR L)).
  { unfold v, channel_var. fold mu. unfold Rdiv. rewrite Rmult_assoc, Rinv_l, Rmult_1_r by exact Nz. reflexivity. }
  rewrite Ev. rewrite <- Q2. generalize dependent (INR B * INR L). intros. field. lra.
Qed.
Print Assumptions C68_training.

(** In training mode a batch of one sample of length one cannot be normalised. *)
Theorem C68_training_single : forall g u draw s sc c m i st, select_network true g u draw s sc c = Ok m -> conv_model m = true ->
  nth_error (stages_of m) i = Some st ->
  exists f, st_normal st = Some f /\ forall z k, shape z = [1; k; 1]%nat -> f z = Err ValueError.
Proof.
  intros g u draw s sc c m i st E Cm Es. destruct (selected_stage _ _ _ _ _ _ _ _ _ _ E Cm Es) as (chs & k & Ch & Ek & Nm).
  exists (batch_norm true (INR k) (sc k)). split; [exact Nm|]. intros z k' Hz. unfold batch_norm, batch_norm1d_train. now rewrite Hz.
Qed.
Print Assumptions C68_training_single.

(** A configuration as in config/net/high_order_conv.yaml, with smaller sizes: channels 1, 3, 2; kernels 4 and 2 with strides 2, 1. *)
Definition demo_cfg (model_type layer_type : string) : cfg := mkCfg
  (mkNetCfg (Some true) (Some model_type) (Some (Scalar layer_type)) (Some (Scalar 2%nat)) (Some (Some (Scalar 3%nat))) (Some None) (Some None)
     (Some 4%nat) (Some (Some (Scalar 2%nat))) (Some 5%nat) (Some (Some (Scalar 3%nat))) (Some 6%nat) (Some 2%Z) (Some (Some (Scalar 2%nat)))
     (Some [1; 3; 2]%nat) (Some (Some (Listed [2; 3]%nat))) (Some [4; 2]%nat) (Some (Some 2)) (Some (Some (Listed [2; 1]%nat)))
     (Some (Some (Listed [1; 2]%Z))) (Some 12%Z) (Some 7%nat)) None None.
Definition demo_args (layer_type : string) : cn_args := mkCN (Some (Scalar layer_type)) (Some (Scalar 2%nat)) [1; 3; 2]%nat
  (Some (Listed [2; 3]%nat)) [4; 2]%nat false (Some 2) (Some (fun _ x => Ok x)) (Some (Listed [2; 1]%nat)) 0.
Lemma demo_args_ok t d k : In (t, (d, k)) conv_class_names -> net_ok d (demo_args t).
Proof.
  intros T. split; [cbn; lia|]. intros i Hi. change (i < 2)%nat in Hi. split.
  - destruct i as [|[|i]]; [| |lia]; unfold good_args; cbn; lia.
  - exists k. destruct i as [|[|i]]; [| |lia]; exact T.
Qed.
Lemma demo_built training s sc : exists m, select_network training (fun _ _ => 0) (fun _ _ => 0) (fun _ _ => 0) s sc (demo_cfg "high_order_conv" "continuous1d") = Ok m /\
  conv_model m = true /\ length (stages_of m) = 2%nat.
Proof. eexists. split; [reflexivity|]. split; reflexivity. Qed.
Example C68_case : exists m st, select_network true (fun _ _ => 0) (fun _ _ => 0) (fun _ _ => 0) bn_fresh (fun _ => bn_fresh) (demo_cfg "high_order_conv" "continuous1d") = Ok m /\
  conv_model m = true /\ nth_error (stages_of m) 0 = Some st.
Proof.
  destruct (demo_built true bn_fresh (fun _ => bn_fresh)) as (m & E & Cm & L). destruct (nth_error (stages_of m) 0) as [st|] eqn:Es.
  - exists m, st. auto.
  - apply nth_error_None in Es. lia.
Qed.

(** ** C69: two-dimensional convolutional networks cannot be evaluated *)

Lemma conv2d_rank l x y : conv2d_forward l x = Ok y -> length (shape y) = 4%nat.
Proof.
  unfold conv2d_forward. destruct (Expansion2d _ _) as [e|]; cbn [rbind]; [|discriminate].
  unfold conv2d. destruct (shape (cv_w l)) as [|? [|? [|? [|? [|? ?]]]]]; cbn [rbind]; try discriminate.
  destruct (shape e) as [|? [|? [|? [|? [|? ?]]]]]; cbn [rbind]; try discriminate.
  destruct (Nat.eqb _ _); cbn [rbind]; [|discriminate].
  destruct (conv_size _ _ _ _ _); cbn [rbind]; [|discriminate]. destruct (conv_size _ _ _ _ _); cbn [rbind]; [|discriminate].
  intros E. injection E as <-. reflexivity.
Qed.
Lemma batch_norm_rank4 training eps s x : length (shape x) = 4%nat -> batch_norm training eps s x = Err ValueError.
Proof.
  intros L. destruct (shape x) as [|? [|? [|? [|? [|? ?]]]]] eqn:E; try discriminate L.
  destruct training; unfold batch_norm, batch_norm1d, batch_norm1d_train; now rewrite E.
Qed.
Lemma factory_2d t a u draw l : In t ["continuous2d"; "discontinuous2d"; "polynomial2d"; "fourier2d"]%string ->
  high_order_convolution_layers t a u draw = Ok l -> exists l2, l = Layer2d l2.
Proof.
  intros T E. assert (X : exists k, In (t, (2%nat, k)) conv_class_names) by (cbn in T; destruct T as [<-|[<-|[<-|[<-|[]]]]]; eexists; cbn; eauto 9).
  destruct X as (k & X). destruct (factory_held t 2 k a u draw l l X E (trained_refl l)) as [(_ & c & -> & _)|(C & _)]; [eauto|discriminate].
Qed.

(** select_network accepts a convolutional model whose first layer is two-dimensional, but the model raises an exception on
    every input, in training and in eval mode: its batch normalisation takes inputs of rank 2 or 3 only. *)
Theorem C69_two_dimensional_fails : forall training g u draw s sc c m lt, select_network training g u draw s sc c = Ok m -> conv_model m = true ->
  nt_layer_type (c_net c) = Some lt ->
  In (entry ""%string (Some lt) 0) ["continuous2d"; "discontinuous2d"; "polynomial2d"; "fourier2d"]%string ->
  forall dw db x, exists e, network_forward dw db m x = (Err e, m).
Proof.
  intros training g u draw s sc c m lt E Cm El T dw db x. destruct (selected_conv _ _ _ _ _ _ _ _ E Cm) as (a & Ea & St).
  destruct (conv_arguments_ok _ _ _ _ Ea) as (_ & Lt & Nm). rewrite El in Lt.
  unfold cn_stages in St. destruct (cn_check a (length (cn_kernel_size a))) as [[]|] eqn:Ck; cbn [rbind] in St; [|discriminate].
  assert (L2 : (2 <= length (cn_channels a))%nat). { unfold cn_check in Ck. destruct (Nat.ltb_spec (length (cn_channels a)) 2); [discriminate|lia]. }
  apply collect_spec in St. destruct St as (Len & V). destruct (stages_of m) as [|st sts] eqn:Es; [cbn in Len; lia|].
  specialize (V 0%nat st eq_refl). cbn [Nat.add] in V. unfold cn_stage in V.
  destruct (cn_layer a (length (cn_kernel_size a)) 0) as [(t, ca)|] eqn:Ec; cbn [rbind] in V; [|discriminate].
  destruct (high_order_convolution_layers _ _ _ _) as [l|] eqn:Eh; cbn [rbind] in V; [|discriminate]. rewrite Nm in V.
  destruct (py_get (Some (cn_channels a)) (0 + 1)) as [k|]; cbn [rbind] in V; [|discriminate V]. injection V as <-. cbn [fst snd] in Eh.
  assert (Et : t = entry ""%string (Some lt) 0).
  { unfold cn_layer in Ec. rewrite <- Lt in Ec. destruct (py_get (scalar_to_list (Some lt) (length (cn_kernel_size a))) 0) as [t'|] eqn:Eg; cbn [rbind] in Ec; [|discriminate].
    assert (t' = t). { repeat (match type of Ec with context [py_get ?v ?j] => destruct (py_get v j); cbn [rbind] in Ec; [|discriminate] end).
      destruct (scalar_to_list (cn_stride a) _) as [sl|]; [destruct (py_get (Some sl) 0)|]; cbn [rbind] in Ec; congruence. }
    subst t'. destruct lt as [t0|tl]; cbn in Eg |- *.
    - destruct (length (cn_kernel_size a)); cbn in Eg; congruence.
    - destruct tl; cbn in Eg |- *; congruence. }
  rewrite <- Et in T. destruct (factory_2d _ _ _ _ _ T Eh) as (l2 & ->).
  assert (Run : forall z, exists e, rbind (conv_layer_forward (Layer2d l2) z) (batch_norm training (INR k) (sc k)) = Err e).
  { intros z. cbn [conv_layer_forward]. destruct (conv2d_forward l2 z) as [y|e] eqn:Ey; cbn [rbind]; [|eauto].
    exists ValueError. apply batch_norm_rank4. eapply conv2d_rank, Ey. }
  destruct m as [h r|cv ln|tl ln]; cbn [stages_of] in Es; [discriminate|..].
  - unfold network_forward, conv_net_forward. rewrite Es. cbn [run_stages st_layer st_normal st_apply].
    destruct (Run x) as (e & Er). exists e. destruct (conv_layer_forward (Layer2d l2) x) as [y|e']; cbn [rbind] in *; [|congruence].
    unfold LazyBatchNorm1d_of. now rewrite Er.
  - unfold network_forward, tail_forward. destruct (py_get (tl_focus tl) 0) as [f0|e]; cbn [rbind]; [|eauto].
    destruct (tail_of f0 x) as [t0|e]; cbn [rbind]; [|eauto]. destruct (flatten1 t0) as [t1|e]; cbn [rbind]; [|eauto].
    destruct (tl_focus tl) as [focus|]; [|eauto]. rewrite Es. cbn [tail_loop st_layer st_normal].
    destruct (Run x) as (e & Er). exists e. destruct (conv_layer_forward (Layer2d l2) x) as [y|e']; cbn [rbind] in *; [|congruence].
    unfold LazyBatchNorm1d_of. now rewrite Er.
Qed.
Print Assumptions C69_two_dimensional_fails.

(** Such a model is built without complaint. *)
Example C69_case : exists m, select_network false (fun _ _ => 0) (fun _ _ => 0) (fun _ _ => 0) bn_fresh (fun _ => bn_fresh) (demo_cfg "high_order_conv" "polynomial2d") = Ok m /\
  conv_model m = true /\ In (entry ""%string (nt_layer_type (c_net (demo_cfg "high_order_conv" "polynomial2d"))) 0) ["continuous2d"; "discontinuous2d"; "polynomial2d"; "fourier2d"]%string.
Proof.
  destruct (new_net_built 2 (mkCN (Some (Scalar "polynomial2d"%string)) (Some (Scalar 2%nat)) [1; 3; 2]%nat
    (Some (Listed [2; 3]%nat)) [4; 2]%nat false (Some 2) (Some (LazyBatchNorm1d_of false (fun _ => bn_fresh))) (Some (Listed [2; 1]%nat)) 0) "" (fun _ _ => 0) (fun _ _ => 0)) as (m & E & _).
  { exact (demo_args_ok "polynomial2d" 2 PolynomialConv ltac:(cbn; auto 9)). }
  exists (NConv m (mkLazy 7 None)). split; [|split; [reflexivity|cbn; auto]].
  unfold select_network. cbn [normalization_of c_net demo_cfg nt_normalize key rbind nt_model_type].
  change (String.eqb "high_order_conv" "high_order_input") with false. change (String.eqb "high_order_conv" "high_order") with false.
  rewrite String.eqb_refl. cbn [conv_arguments nt_layer_type nt_n nt_channels nt_segments nt_kernel_size nt_periodicity nt_stride key rbind]. rewrite E. reflexivity.
Qed.

(** ** C70: which keys of the configuration matter *)

Definition model_types : list string := ["high_order_input"; "high_order"; "high_order_conv"; "high_order_tail_focus"]%string.

(** An unknown model type gives the announced ValueError only if the configuration happens to have a key [model_type] at top
    level; otherwise composing the message fails with AttributeError. *)
Theorem C70_unknown_model_type : forall training g u draw s sc c t, nt_normalize (c_net c) <> None ->
  nt_model_type (c_net c) = Some t -> ~ In t model_types ->
  select_network training g u draw s sc c = Err (match c_model_type c with Some _ => ValueError | None => AttributeError end).
Proof.
  intros training g u draw s sc c t Nn Et Nt. unfold select_network, normalization_of. destruct (nt_normalize (c_net c)); [|contradiction].
  rewrite Et. cbn [key rbind].
  destruct (String.eqb_spec t "high_order_input") as [->|_]; [exfalso; apply Nt; cbn; auto|].
  destruct (String.eqb_spec t "high_order") as [->|_]; [exfalso; apply Nt; cbn; auto|].
  destruct (String.eqb_spec t "high_order_conv") as [->|_]; [exfalso; apply Nt; cbn; auto|].
  destruct (String.eqb_spec t "high_order_tail_focus") as [->|_]; [exfalso; apply Nt; cbn; auto|].
  now destruct (c_model_type c).
Qed.
Print Assumptions C70_unknown_model_type.

(** A model of type "high_order_input" is never built from a configuration that gives the output width under [net] only:
    the width is read from the key [output.width] at top level. *)
Theorem C70_high_order_input_needs_top_level_output : forall training g u draw s sc c, nt_model_type (c_net c) = Some "high_order_input"%string ->
  c_output_width c = None -> exists e, select_network training g u draw s sc c = Err e.
Proof.
  intros training g u draw s sc c Et Ow. unfold select_network. rewrite Et.
  destruct (normalization_of training (c_net c) s) as [nm|e]; cbn [rbind key]; [|eauto]. rewrite String.eqb_refl.
  assert (H : exists e, high_order_input g c nm [] = Err e); [|destruct H as (e & ->); cbn; eauto].
  unfold high_order_input. rewrite Ow. unfold mthen, mlift, mraise. cbn [key].
  repeat match goal with |- exists e, match match ?v with Ok _ => _ | Err _ => _ end with Ok _ => _ | Err _ => _ end = Err e => destruct v as [?|e]; [cbv beta iota|exists e; reflexivity] end.
  destruct (high_order_fc_layers _ _ _ _) as [(k, h1)|e]; [|eauto].
  destruct nm as [(f, ps)|]; cbn; eauto.
Qed.
Print Assumptions C70_high_order_input_needs_top_level_output.

(** The fully connected models take no list of layer types: ValueError, once all keys are found. *)
Theorem C70_layer_type_list : forall training g u draw s sc c v ts, let n := c_net c in
  nt_normalize n = Some v -> nt_layer_type n = Some (Listed ts) ->
  nt_n n <> None -> nt_input_width n <> None -> nt_input_segments n <> None -> nt_hidden_width n <> None ->
  nt_model_type n = Some "high_order_input"%string \/
  (nt_model_type n = Some "high_order"%string /\ nt_n_in n <> None /\ nt_n_out n <> None /\ nt_output_width n <> None /\
   nt_output_segments n <> None /\ nt_hidden_layers n <> None /\ nt_hidden_segments n <> None) ->
  select_network training g u draw s sc c = Err ValueError.
Proof.
  intros training g u draw s sc c v ts n Hv Hl N1 N2 N3 N4 K. unfold select_network. fold n. unfold normalization_of. rewrite Hv. cbn [key rbind].
  destruct K as [M|(M & N5 & N6 & N7 & N8 & N9 & N10)]; rewrite M; cbn [key rbind]; rewrite ?String.eqb_refl.
  - unfold high_order_input. fold n. rewrite Hl. unfold mthen, mlift.
    destruct (nt_n n); [|congruence]. destruct (nt_input_width n); [|congruence]. destruct (nt_hidden_width n); [|congruence]. destruct (nt_input_segments n); [|congruence]. reflexivity.
  - change (String.eqb "high_order" "high_order_input") with false. cbv iota. unfold high_order. rewrite Hl. unfold mthen, mlift.
    destruct (nt_n n); [|congruence]. destruct (nt_n_in n); [|congruence]. destruct (nt_n_out n); [|congruence]. destruct (nt_input_width n); [|congruence].
    destruct (nt_input_segments n); [|congruence]. destruct (nt_output_width n); [|congruence]. destruct (nt_output_segments n); [|congruence].
    destruct (nt_hidden_width n); [|congruence]. destruct (nt_hidden_layers n); [|congruence]. destruct (nt_hidden_segments n); [|congruence]. reflexivity.
Qed.
Print Assumptions C70_layer_type_list.

Definition with_n (a : mlp_args) (n : ints) : mlp_args := mkMLP (ma_layer_type a) n (ma_in_width a) (ma_out_width a) (ma_hidden_layers a)
  (ma_hidden_width a) (ma_scale a) (ma_n_in a) (ma_n_out a) (ma_n_hidden a) (ma_rescale_output a) (ma_periodicity a) (ma_non_linearity a)
  (ma_in_segments a) (ma_out_segments a) (ma_hidden_segments a) (ma_normalization a) (ma_resnet a) (ma_layer_type_in a) (ma_initialization a) (ma_dropout a).
Lemma mlp_hidden_n g a k dl N : or_ints (ma_n_hidden a) (ma_n a) = or_ints (ma_n_hidden a) k ->
  forall i L h, mlp_hidden g a dl N i L h = mlp_hidden g (with_n a k) dl N i L h.
Proof.
  intros E. induction N as [|N IH]; intros i L h; cbn [mlp_hidden]; [reflexivity|]. unfold mthen. change (mlp_layer g (with_n a k)) with (mlp_layer g a).
  change (ma_normalization (with_n a k)) with (ma_normalization a). change (ma_non_linearity (with_n a k)) with (ma_non_linearity a).
  destruct (between (ma_normalization a) (ma_non_linearity a) h) as [(bb, hb)|]; [|reflexivity].
  change (or_ints (ma_n_hidden (with_n a k)) (ma_n (with_n a k))) with (or_ints (ma_n_hidden a) k). rewrite <- E.
  change (ma_resnet (with_n a k)) with (ma_resnet a). cbn [with_n ma_layer_type ma_hidden_width ma_hidden_segments]. destruct (mlp_layer _ _ _ _ _ _ _ _) as [(kk, hk)|]; [|reflexivity].
  destruct (ma_resnet a && Nat.ltb 0 i)%bool; cbn [alloc mret]; apply IH.
Qed.
Lemma high_order_mlp_n g a k h : or_ints (ma_n_in a) (ma_n a) = or_ints (ma_n_in a) k -> or_ints (ma_n_out a) (ma_n a) = or_ints (ma_n_out a) k ->
  or_ints (ma_n_hidden a) (ma_n a) = or_ints (ma_n_hidden a) k -> HighOrderMLP g a h = HighOrderMLP g (with_n a k) h.
Proof.
  intros E1 E2 E3. unfold HighOrderMLP. cbn [with_n ma_dropout ma_layer_type_in ma_layer_type ma_n_in ma_n ma_in_width ma_hidden_width ma_in_segments
    ma_hidden_layers ma_normalization ma_non_linearity ma_n_out ma_out_width ma_out_segments].
  destruct (Rlt_dec (ma_dropout a) 0); [reflexivity|]. destruct (Rlt_dec 1 (ma_dropout a)); [reflexivity|]. rewrite <- E1, <- E2.
  unfold mthen. destruct (alloc _ h) as [(dl, h1)|]; [|reflexivity]. change (mlp_layer g (with_n a k)) with (mlp_layer g a).
  destruct (mlp_layer _ _ _ _ _ _ _ h1) as [(k1, h2)|]; [|reflexivity]. rewrite <- (mlp_hidden_n g a k dl _ E3). reflexivity.
Qed.

(** "high_order": the model depends on the keys listed here only.  In particular [n_hidden], [periodicity] and
    [rescale_output] are without effect; and so is [n] when both [n_in] and [n_out] are given. *)
Theorem C70_high_order_keys : forall training g u draw s sc c c', let n := c_net c in let n' := c_net c' in
  nt_model_type n = Some "high_order"%string -> nt_model_type n' = Some "high_order"%string ->
  nt_normalize n = nt_normalize n' -> nt_layer_type n = nt_layer_type n' ->
  nt_n_in n = nt_n_in n' -> nt_n_out n = nt_n_out n' -> nt_input_width n = nt_input_width n' -> nt_input_segments n = nt_input_segments n' ->
  nt_output_width n = nt_output_width n' -> nt_output_segments n = nt_output_segments n' -> nt_hidden_width n = nt_hidden_width n' ->
  nt_hidden_layers n = nt_hidden_layers n' -> nt_hidden_segments n = nt_hidden_segments n' ->
  nt_n n = nt_n n' \/ (nt_n n <> None /\ nt_n n' <> None /\
    exists a b, nt_n_in n = Some (Some (Scalar (S a))) /\ nt_n_out n = Some (Some (Scalar (S b)))) ->
  select_network training g u draw s sc c = select_network training g u draw s sc c'.
Proof.
  intros training g u draw s sc c c' n n' M M' Hz Hl Hi Ho Hw Hs How Hos Hhw Hhl Hhs Hn. unfold select_network. fold n. fold n'. rewrite M, M'.
  unfold normalization_of. rewrite Hz. destruct (nt_normalize n') as [nz|]; [|reflexivity]. cbn [key rbind]. rewrite !String.eqb_refl.
  change (String.eqb "high_order" "high_order_input") with false. cbv iota.
  assert (H : forall nm, high_order g n nm [] = high_order g n' nm []); [|now rewrite H].
  intros nm. unfold high_order. rewrite Hl, Hw, Hs, How, Hos, Hhw, Hhl, Hhs. destruct Hn as [->|(N1 & N2 & a & b & Ea & Eb)].
  - now rewrite Hi, Ho.
  - rewrite <- Hi, <- Ho, Ea, Eb. destruct (nt_n n) as [k|]; [|contradiction]. destruct (nt_n n') as [k'|]; [|contradiction]. cbn [key mlift].
    unfold mthen, mlift, mraise. destruct (nt_layer_type n') as [ty|]; cbn [key]; [|reflexivity].
    destruct (nt_input_width n') as [iw|]; cbn [key]; [|reflexivity]. destruct (nt_input_segments n') as [si|]; cbn [key]; [|reflexivity].
    destruct (nt_output_width n') as [ow|]; cbn [key]; [|reflexivity]. destruct (nt_output_segments n') as [so|]; cbn [key]; [|reflexivity].
    destruct (nt_hidden_width n') as [hw|]; cbn [key]; [|reflexivity]. destruct (nt_hidden_layers n') as [hl|]; cbn [key]; [|reflexivity].
    destruct (nt_hidden_segments n') as [sh|]; cbn [key]; [|reflexivity]. destruct (layer_name ty) as [lt|]; [|reflexivity].
    apply (high_order_mlp_n g (mkMLP lt (to_ints k) iw ow (Z.to_nat hl) hw 2 (Some (Int (S a))) (Some (Int (S b))) (Some (Int (S a))) false None None
      (option_map to_ints si) (option_map to_ints so) (option_map to_ints sh) nm false None "constant_random" 0) (to_ints k')); reflexivity.
Qed.
Print Assumptions C70_high_order_keys.

(** The convolutional models: [normalize] must be present but its value is without effect: batch normalisation is always used. *)
Theorem C70_conv_normalize_ignored : forall training g u draw s sc c c' v v', let n := c_net c in let n' := c_net c' in
  nt_normalize n = Some v -> nt_normalize n' = Some v' -> nt_model_type n = nt_model_type n' ->
  nt_model_type n = Some "high_order_conv"%string \/ nt_model_type n = Some "high_order_tail_focus"%string ->
  nt_layer_type n = nt_layer_type n' -> nt_n n = nt_n n' -> nt_channels n = nt_channels n' -> nt_segments n = nt_segments n' ->
  nt_kernel_size n = nt_kernel_size n' -> nt_periodicity n = nt_periodicity n' -> nt_stride n = nt_stride n' -> nt_focus n = nt_focus n' ->
  nt_features n = nt_features n' -> nt_out_features n = nt_out_features n' ->
  select_network training g u draw s sc c = select_network training g u draw s sc c'.
Proof.
  intros training g u draw s sc c c' v v' n n' E E' M Mt H1 H2 H3 H4 H5 H6 H7 H8 H9 H10. unfold select_network. fold n. fold n'.
  unfold normalization_of. rewrite E, E', <- M. cbn [key rbind].
  assert (Ca : conv_arguments training n sc = conv_arguments training n' sc) by (unfold conv_arguments; now rewrite H1, H2, H3, H4, H5, H6, H7).
  destruct Mt as [-> | ->]; cbn [key rbind].
  - change (String.eqb "high_order_conv" "high_order_input") with false. change (String.eqb "high_order_conv" "high_order") with false.
    rewrite String.eqb_refl. cbv iota. now rewrite Ca, H10.
  - change (String.eqb "high_order_tail_focus" "high_order_input") with false. change (String.eqb "high_order_tail_focus" "high_order") with false.
    change (String.eqb "high_order_tail_focus" "high_order_conv") with false. rewrite String.eqb_refl. cbv iota. now rewrite Ca, H8, H9, H10.
Qed.
Print Assumptions C70_conv_normalize_ignored.

Example C70_case :
  select_network false (fun _ _ => 0) (fun _ _ => 0) (fun _ _ => 0) bn_fresh (fun _ => bn_fresh) (demo_cfg "high_order_input" "continuous") = Err AttributeError /\
  select_network false (fun _ _ => 0) (fun _ _ => 0) (fun _ _ => 0) bn_fresh (fun _ => bn_fresh) (demo_cfg "high_order_conf" "continuous") = Err AttributeError.
Proof. split; reflexivity. Qed.
