(** * The linear layer behind configured convolutional networks takes its size from the first input: C74. *)
From Coq Require Import String Reals ZArith List Bool Lia Lra Arith.
From Verif Require Import Spec Tensor Utils Layers Vae Networks Convolution ConvNetworks ObserveConv ObserveConvNet Modules ObserveModules
  TensorFacts ConvFacts ConvNetFacts Prop_ConvNet Prop_Tail Prop_Select.
Import ListNotations.
Local Open Scope R_scope.
Local Open Scope nat_scope.

Definition with_norm (a : cn_args) (f : nat -> tensor R -> res (tensor R)) : cn_args :=
  mkCN (cn_layer_type a) (cn_n a) (cn_channels a) (cn_segments a) (cn_kernel_size a) (cn_rescale_output a) (cn_periodicity a)
    (Some f) (cn_stride a) (cn_padding a).
Lemma arguments_of n a training sc : conv_cfg n a -> conv_arguments training n sc = Ok (with_norm a (LazyBatchNorm1d_of training sc)).
Proof.
  intros [(T0 & T) (N0 & N) C S K P St Pd Re _ _]. unfold conv_arguments. rewrite T, N, C, S, K, P, St.
  destruct (cn_layer_type a) eqn:Et; [|contradiction]. destruct (cn_n a) eqn:En; [|contradiction]. cbn [key rbind].
  unfold with_norm. now rewrite Et, En, Pd, Re.
Qed.
Lemma width_norm a f i W : width (with_norm a f) i W = width a i W.
Proof. induction i as [|i IH]; [reflexivity|]. cbn [width]. now rewrite IH. Qed.
Lemma fits_norm a f W : net_fits a W -> net_fits (with_norm a f) W.
Proof. intros F i Hi. specialize (F i Hi). now rewrite width_norm. Qed.
Lemma offset_norm a f focus W i : offset (with_norm a f) focus W i = offset a focus W i.
Proof. unfold offset. f_equal. apply map_ext. intros j. unfold piece. now rewrite width_norm. Qed.

Lemma trained_trans l l1 l2 : trained_layer l l1 -> trained_layer l1 l2 -> trained_layer l l2.
Proof.
  destruct l, l1, l2; cbn; try tauto; intros (w & Ew & ->) (w' & Ew' & ->); exists w'; (split; [cbn in Ew'; congruence|reflexivity]).
Qed.
Lemma retrained_trans s s1 s2 : retrained_stages s s1 -> retrained_stages s1 s2 -> retrained_stages s s2.
Proof.
  intros (L & H) (L' & H'). split; [congruence|]. intros i a c Ea Ec.
  destruct (nth_error s1 i) as [b|] eqn:Eb.
  - destruct (H i a b Ea Eb) as (T & _), (H' i b c Eb Ec) as (T' & N). split; [eapply trained_trans; eauto|exact N].
  - apply nth_error_None in Eb. assert (i < length s) by (apply nth_error_Some; congruence). lia.
Qed.

(** In eval mode, trained or not, the network is one a user can hold in the sense of C65. *)
Lemma retrained_held a f sts sts' : net_ok 1 a -> built_stages (with_norm a f) sts -> retrained_stages sts sts' ->
  held_stages (with_norm a f) sts'.
Proof.
  intros N Bt (L & H). exists sts. split; [exact Bt|]. split; [exact L|]. intros i s0 s E0 E1. destruct (H i s0 s E0 E1) as (T & eps & st & Nm).
  split; [exact T|]. destruct Bt as (u & draw & E).
  destruct (cn_stages_ok 1 (with_norm a f) (length (cn_kernel_size a)) (fun i t c => high_order_convolution_layers t c (u i) (draw i)) N (le_n _)) as (sts1 & E1' & L1 & V).
  { intros j Hj. destruct N as (C & G). destruct (G j Hj) as (Gi & k & Tk). exact (factory_ok _ 1 k _ _ _ Tk Gi). }
  assert (sts1 = sts) by (cbn [with_norm cn_kernel_size] in E; congruence). subst sts1. destruct (V i s0 E0) as (Fa & Ns). rewrite Ns. cbn [with_norm cn_normalization option_map].
  rewrite Nm. intros x Rk Cx.
  assert (Hi : i < layers a). { assert (i < length sts) by (apply nth_error_Some; congruence). change (layers (with_norm a f)) with (layers a) in L1. lia. }
  destruct N as (_ & G). destruct (G i Hi) as (_ & k & Tk). rewrite (factory_rank _ 1 k _ _ _ _ _ Tk Fa T) in Rk.
  destruct (shape x) as [|d0 [|d1 [|d2 [|d3 sh]]]] eqn:Sx; cbn in Rk; try lia. unfold batch_norm1d. rewrite Sx. eexists. split; [reflexivity|]. reflexivity.
Qed.

Lemma lazy_first dw db o x B w : shape x = [B; w] ->
  exists y w' b', lazy_forward dw db (mkLazy o None) x = (Ok y, mkLazy o (Some (w', b'))) /\ shape y = [B; o] /\ shape w' = [o; w] /\ shape b' = [o].
Proof.
  intros Hx. unfold lazy_forward. cbn [lz_params lz_out]. rewrite Hx. cbn [rev app]. unfold Linear_forward. cbn [shape]. rewrite Hx. cbn [rev app removelast].
  rewrite Nat.eqb_refl. eexists _, _, _. split; [reflexivity|]. repeat split.
Qed.
Lemma lazy_later dw db o w' b' x B w v : shape w' = [o; v] -> shape x = [B; w] ->
  exists r, lazy_forward dw db (mkLazy o (Some (w', b'))) x = (r, mkLazy o (Some (w', b'))) /\
    (w = v -> exists y, r = Ok y /\ shape y = [B; o]) /\ (w <> v -> r = Err RuntimeError).
Proof.
  intros Hw Hx. unfold lazy_forward. cbn [lz_params]. eexists. split; [reflexivity|]. unfold Linear_forward. rewrite Hw, Hx. cbn [rev app removelast].
  destruct (Nat.eqb_spec w v) as [E|E]; (split; [intros H|intros H]); try contradiction; [eexists; split; reflexivity|reflexivity].
Qed.

(** A "high_order_conv" model of 1d layers: any fitting width is accepted as the first one and gives [batch, out_features];
    from then on, whatever further training does, exactly the widths that lead to as many columns are accepted. *)
Theorem C74_conv_first_width : forall g u draw s sc c a o, net_ok 1 a -> conv_cfg (c_net c) a ->
  nt_model_type (c_net c) = Some "high_order_conv"%string -> nt_out_features (c_net c) = Some o ->
  exists m, select_network false g u draw s sc c = Ok m /\
  forall m1 dw db x B W, retrained_network m m1 -> shape x = [B; channel a 0; W] -> net_fits a W ->
  exists y m2, network_forward dw db m1 x = (Ok y, m2) /\ shape y = [B; o] /\
  forall m3 dw' db' x' B' W', retrained_network m2 m3 -> shape x' = [B'; channel a 0; W'] -> net_fits a W' ->
  exists r, network_forward dw' db' m3 x' = (r, m3) /\
    (width a (layers a) W' = width a (layers a) W -> exists y', r = Ok y' /\ shape y' = [B'; o]) /\
    (width a (layers a) W' <> width a (layers a) W -> r = Err RuntimeError).
Proof.
  intros g u draw s sc c a o N Cc Mt Ho. set (nm := LazyBatchNorm1d_of false sc).
  assert (N' : net_ok 1 (with_norm a nm)) by exact N.
  destruct (new_net_built 1 (with_norm a nm) "" u draw N') as (m & Em & Bt & Pm & _).
  exists (NConv m (mkLazy o None)). split.
  { unfold select_network. rewrite Mt. unfold normalization_of. destruct (nt_normalize (c_net c)) as [nz|] eqn:Ez; [|destruct (cc_normalize _ _ Cc Ez)].
    cbn [key rbind]. change (String.eqb "high_order_conv" "high_order_input") with false. change (String.eqb "high_order_conv" "high_order") with false.
    rewrite String.eqb_refl. cbv iota. rewrite (arguments_of _ a false sc Cc). fold nm. cbn [rbind]. rewrite Em, Ho. reflexivity. }
  assert (Run : forall sts x B W, retrained_stages (fc_stages m) sts -> shape x = [B; channel a 0; W] -> net_fits a W ->
    exists y, conv_net_forward (mkConvNet sts (fc_pooling m) (fc_channels m)) x = Ok y /\ shape y = [B; channel a (layers a) * width a (layers a) W]).
  { intros sts x B W Rt Hx F.
    destruct (C65_no_pooling 1 (with_norm a nm) (mkConvNet sts (fc_pooling m) (fc_channels m)) x B [W] N') as (ys & y & _ & Ey & Sy & _).
    - exact (retrained_held a nm _ _ N Bt Rt).
    - cbn [fc_pooling]. rewrite Pm. cbn. intuition congruence.
    - exact Hx.
    - reflexivity.
    - intros w [<-|[]]. now apply fits_norm.
    - exists y. split; [exact Ey|]. rewrite Sy. cbn [map prodn]. rewrite width_norm. change (layers (with_norm a nm)) with (layers a).
      change (channel (with_norm a nm)) with (channel a). rewrite Nat.mul_1_r. reflexivity. }
  assert (C1 : 1 <= channel a (layers a)).
  { destruct N as (C & G). destruct (G (layers a - 1) ltac:(unfold layers; lia)) as ((_ & _ & _ & G4 & _) & _). cbn [layer_args a_out] in G4.
    replace (layers a - 1 + 1) with (layers a) in G4 by (unfold layers; lia). exact G4. }
  intros m1 dw db x B W Rt Hx F. inversion Rt as [m0 l0 sts l1 Rs (Lo & Lp)|]; subst m0 l0. subst m1. cbn [lz_out lz_params] in Lo, Lp.
  destruct l1 as [o1 [p|]]; cbn [lz_out lz_params] in Lo, Lp; [contradiction|]. subst o1.
  destruct (Run sts x B W Rs Hx F) as (y0 & Ey0 & Sy0). destruct (lazy_first dw db o y0 B _ Sy0) as (y & w & b & El & Sy & Sw & Sb).
  exists y, (NConv (mkConvNet sts (fc_pooling m) (fc_channels m)) (mkLazy o (Some (w, b)))). split.
  { cbn [network_forward]. rewrite Ey0, El. reflexivity. }
  split; [exact Sy|]. intros m3 dw' db' x' B' W' Rt' Hx' F'. inversion Rt' as [m0 l0 sts' l1 Rs' (Lo' & Lp')|]; subst m0 l0. subst m3.
  cbn [lz_out lz_params] in Lo', Lp'. destruct l1 as [o1 [(w1, b1)|]]; cbn [lz_out lz_params] in Lo', Lp'; [|contradiction]. subst o1. destruct Lp' as (Sw' & _).
  cbn [fc_stages fc_pooling fc_channels] in *.
  destruct (Run sts' x' B' W' (retrained_trans _ _ _ Rs Rs') Hx' F') as (y1 & Ey1 & Sy1).
  destruct (lazy_later dw' db' o w1 b1 y1 B' _ (channel a (layers a) * width a (layers a) W) ltac:(congruence) Sy1) as (r & Er & H1 & H2).
  exists r. split; [cbn [network_forward]; rewrite Ey1, Er; reflexivity|]. split.
  - intros Q. apply H1. now rewrite Q.
  - intros Q. apply H2. intros Q'. apply Q. now apply Nat.mul_cancel_l in Q'; [|lia].
Qed.
Print Assumptions C74_conv_first_width.

(** A "high_order_tail_focus" model likewise; the columns are those of the selected tails and of the last activation. *)
Theorem C74_tail_first_width : forall g u draw s sc c a focus o m, net_ok 1 a -> conv_cfg (c_net c) a ->
  nt_model_type (c_net c) = Some "high_order_tail_focus"%string -> nt_out_features (c_net c) = Some o ->
  nt_focus (c_net c) = Some (Some focus) -> 1 <= foci a focus ->
  select_network false g u draw s sc c = Ok m ->
  let columns W := offset a focus W (Nat.min (layers a + 1) (foci a focus)) + channel a (layers a) * width a (layers a) W in
  forall m1 dw db x B W, retrained_network m m1 -> shape x = [B; channel a 0; W] -> net_fits a W ->
  exists y m2, network_forward dw db m1 x = (Ok y, m2) /\ shape y = [B; o] /\
  forall m3 dw' db' x' B' W', retrained_network m2 m3 -> shape x' = [B'; channel a 0; W'] -> net_fits a W' ->
  exists r, network_forward dw' db' m3 x' = (r, m3) /\
    (columns W' = columns W -> exists y', r = Ok y' /\ shape y' = [B'; o]) /\
    (columns W' <> columns W -> r = Err RuntimeError).
Proof.
  intros g u draw s sc c a focus o m N Cc Mt Ho Hf F1 E columns. set (nm := LazyBatchNorm1d_of false sc).
  assert (N' : net_ok 1 (with_norm a nm)) by exact N.
  unfold select_network in E. rewrite Mt in E. unfold normalization_of in E. destruct (nt_normalize (c_net c)) as [nz|] eqn:Ez; [|destruct (cc_normalize _ _ Cc Ez)].
  cbn [key rbind] in E. change (String.eqb "high_order_tail_focus" "high_order_input") with false in E. change (String.eqb "high_order_tail_focus" "high_order") with false in E.
  change (String.eqb "high_order_tail_focus" "high_order_conv") with false in E.
  rewrite String.eqb_refl in E. cbv iota in E. rewrite (arguments_of _ a false sc Cc) in E. fold nm in E. rewrite Hf, Ho in E. cbn [key rbind] in E.
  destruct (new_tail_net (with_norm a nm) (Some focus) u draw) as [t|] eqn:Et; cbn [rbind] in E; [|discriminate].
  destruct (key (nt_features (c_net c))); cbn [rbind] in E; [|discriminate]. destruct (compute_sizes t _); cbn [rbind] in E; [|discriminate]. injection E as <-.
  assert (Bt : built_stages (with_norm a nm) (tl_stages t)).
  { exists u, draw. unfold new_tail_net in Et. destruct (cn_stages _ _ _) as [sts|] eqn:Es; cbn [rbind] in Et; [|discriminate]. injection Et as <-. reflexivity. }
  assert (Run : forall sts x B W, retrained_stages (tl_stages t) sts -> shape x = [B; channel a 0; W] -> net_fits a W ->
    exists y, tail_forward (mkTail sts (tl_channels t) (tl_kernel_size t) (tl_stride t) (tl_focus t)) x = Ok y /\ shape y = [B; columns W]).
  { intros sts x B W Rt Hx F.
    destruct (C39_forward (with_norm a nm) focus (mkTail sts (tl_channels t) (tl_kernel_size t) (tl_stride t) (tl_focus t)) x B W N') as (ys & y & _ & _ & Ey & Sy & _).
    - split; [exact (retrained_held a nm _ _ N Bt Rt)|]. exists u, draw, t. repeat split. exact Et.
    - exact F1.
    - exact Hx.
    - now apply fits_norm.
    - exists y. split; [exact Ey|]. rewrite Sy, offset_norm, width_norm. reflexivity. }
  intros m1 dw db x B W Rt Hx F. inversion Rt as [|m0 l0 sts l1 Rs (Lo & Lp)]; subst m0 l0. subst m1. cbn [lz_out lz_params] in Lo, Lp.
  destruct l1 as [o1 [p|]]; cbn [lz_out lz_params] in Lo, Lp; [contradiction|]. subst o1.
  destruct (Run sts x B W Rs Hx F) as (y0 & Ey0 & Sy0). destruct (lazy_first dw db o y0 B _ Sy0) as (y & w & b & El & Sy & Sw & Sb).
  eexists y, (NTail _ (mkLazy o (Some (w, b)))). split.
  { cbn [network_forward]. rewrite Ey0, El. reflexivity. }
  split; [exact Sy|]. intros m3 dw' db' x' B' W' Rt' Hx' F'. inversion Rt' as [|m0 l0 sts' l1 Rs' (Lo' & Lp')]; subst m0 l0. subst m3.
  cbn [lz_out lz_params] in Lo', Lp'. destruct l1 as [o1 [(w1, b1)|]]; cbn [lz_out lz_params] in Lo', Lp'; [|contradiction]. subst o1. destruct Lp' as (Sw' & _).
  cbn [tl_stages tl_channels tl_kernel_size tl_stride tl_focus] in *.
  destruct (Run sts' x' B' W' (retrained_trans _ _ _ Rs Rs') Hx' F') as (y1 & Ey1 & Sy1).
  destruct (lazy_later dw' db' o w1 b1 y1 B' _ (columns W) ltac:(congruence) Sy1) as (r & Er & H1 & H2).
  exists r. split; [cbn [network_forward]; rewrite Ey1, Er; reflexivity|]. split; [exact H1|exact H2].
Qed.
Print Assumptions C74_tail_first_width.

(** The networks of C68's example: channels 1, 3, 2; kernels 4, 2; strides 2, 1.  Width 14 gives 6, then 5; so does width 15, but
    not width 16. *)
Lemma demo_conv_cfg : conv_cfg (c_net (demo_cfg "high_order_conv" "continuous1d")) (demo_args "continuous1d").
Proof. constructor; cbn; try split; congruence. Qed.
Example C74_case : net_ok 1 (demo_args "continuous1d") /\ conv_cfg (c_net (demo_cfg "high_order_conv" "continuous1d")) (demo_args "continuous1d") /\
  net_fits (demo_args "continuous1d") 14 /\ net_fits (demo_args "continuous1d") 15 /\ net_fits (demo_args "continuous1d") 16 /\
  width (demo_args "continuous1d") 2 14 = width (demo_args "continuous1d") 2 15 /\
  width (demo_args "continuous1d") 2 14 <> width (demo_args "continuous1d") 2 16.
Proof.
  assert (F : forall W, 14 <= W <= 16 -> net_fits (demo_args "continuous1d") W).
  { intros W HW i Hi. change (i < 2) in Hi. assert (W = 14 \/ W = 15 \/ W = 16) as [->|[->| ->]] by lia; destruct i as [|[|i]]; try lia; unfold fits; cbn; lia. }
  split; [exact (demo_args_ok "continuous1d" 1 PiecewiseConv ltac:(cbn; auto 9))|]. split; [exact demo_conv_cfg|].
  split; [apply F; lia|]. split; [apply F; lia|]. split; [apply F; lia|]. split; [reflexivity|]. cbn. lia.
Qed.
(** The tail focus model can be selected. *)
Example C74_tail_case : exists m, select_network false (fun _ _ => 0%R) (fun _ _ => 0%R) (fun _ _ => 0%R) bn_fresh (fun _ => bn_fresh)
    (demo_cfg "high_order_tail_focus" "continuous1d") = Ok m /\ conv_cfg (c_net (demo_cfg "high_order_tail_focus" "continuous1d")) (demo_args "continuous1d") /\
  foci (demo_args "continuous1d") (Listed [1; 2]%Z) = 2.
Proof. eexists. split; [vm_compute; reflexivity|]. split; [constructor; cbn; try split; congruence|reflexivity]. Qed.
