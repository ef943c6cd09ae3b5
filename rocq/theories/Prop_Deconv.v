(** * Fully deconvolutional networks (C67). *)
From Coq Require Import String Reals ZArith List Lia Lra Bool.
From Verif Require Import Spec Tensor Utils Convolution Layers Vae ConvNetworks Observe ObserveConv ObserveConvNet
  SumFacts TensorFacts ConvFacts ConvNetFacts Prop_Conv Prop_ConvNet.
Import ListNotations.
Local Open Scope R_scope.

Lemma deconv_net_ok a : deconv_ok a -> net_ok 2 a.
Proof.
  intros (C & G). split; [exact C|]. intros i Hi. destruct (G i Hi) as (Gi & T). split; [exact Gi|]. exists PiecewiseConv. rewrite T. cbn. auto.
Qed.
(** Such networks can be built, and only of "continuous2d" layers. *)
Theorem C67_built : forall a u, deconv_ok a -> exists m, new_deconv_net a u = Ok m /\ length m = layers a.
Proof.
  intros a u D. pose proof (deconv_net_ok a D) as N. unfold new_deconv_net.
  destruct (cn_stages_lt 2 a (length (cn_channels a)) (fun i t c => high_order_convolution_transpose_layers t c (u i)) N) as (m & E & L & _).
  - unfold layers. lia.
  - intros i Hi. destruct D as (_ & G). destruct (G i Hi) as (_ & ->). cbn. eauto.
  - eauto.
Qed.
Print Assumptions C67_built.

Theorem C67_only_continuous2d : forall a u m, new_deconv_net a u = Ok m ->
  length m = layers a /\ forall i, (i < layers a)%nat -> layer_type_of a i = "continuous2d"%string.
Proof.
  intros a u m E. unfold new_deconv_net, cn_stages in E. destruct (cn_check a _); cbn [rbind] in E; [|discriminate].
  destruct (collect_spec _ _ _ _ E) as (L & V). split; [exact L|]. intros i Hi.
  destruct (nth_error m i) as [s|] eqn:Es; [|apply nth_error_None in Es; unfold layers in Hi; lia].
  pose proof (V i s Es) as Ei. cbn [Nat.add] in Ei. unfold cn_stage in Ei. destruct (cn_layer a _ i) as [(t, c)|] eqn:Ea; cbn [rbind fst snd] in Ei; [|discriminate].
  assert (Et : t = layer_type_of a i).
  { unfold cn_layer in Ea. destruct (py_get (scalar_to_list (cn_layer_type a) _) i) as [t'|] eqn:Et; cbn [rbind] in Ea; [|discriminate].
    assert (t = t') as ->.
    { revert Ea. repeat (match goal with |- rbind ?m _ = _ -> _ => destruct m; cbn [rbind]; [|discriminate] end). congruence. }
    unfold layer_type_of. destruct (cn_layer_type a) as [[v|v]|]; cbn in *.
    - destruct (nth_error (repeat v _) i) as [x|] eqn:En; [|discriminate]. injection Et as <-. apply nth_error_In, repeat_spec in En. congruence.
    - destruct (nth_error v i) as [x|] eqn:En; [|discriminate]. injection Et as <-. symmetry. now apply nth_error_nth.
    - discriminate. }
  subst t. unfold high_order_convolution_transpose_layers in Ei.
  destruct (String.eqb_spec (layer_type_of a i) "continuous2d"); [assumption|discriminate].
Qed.
Print Assumptions C67_only_continuous2d.

Lemma run_pair {L} (fwd : L -> tensor R -> res (tensor R)) (P : nat -> tensor R -> tensor R -> Prop) : forall sts k,
  (forall i s, nth_error sts i = Some s -> forall x x', P (k + i)%nat x x' ->
     exists y y', rbind (fwd (st_layer s) x) (st_apply (st_normal s)) = Ok y /\ rbind (fwd (st_layer s) x') (st_apply (st_normal s)) = Ok y' /\ P (S (k + i)) y y') ->
  forall x x', P k x x' -> exists y y', run_stages fwd sts x = Ok y /\ run_stages fwd sts x' = Ok y' /\ P (k + length sts)%nat y y'.
Proof.
  induction sts as [|s sts IH]; intros k H x x' Hx; cbn [run_stages length].
  - exists x, x'. rewrite Nat.add_0_r. auto.
  - destruct (H 0%nat s eq_refl x x') as (y & y' & E & E' & Hy); [now rewrite Nat.add_0_r|]. rewrite Nat.add_0_r in Hy.
    destruct (IH (S k)) with (2 := Hy) as (z & z' & Ez & Ez' & Hz).
    { intros i s' Es'. specialize (H (S i) s' Es'). now rewrite Nat.add_succ_r in H. }
    exists z, z'. destruct (fwd (st_layer s) x); cbn [rbind] in *; [|discriminate]. destruct (fwd (st_layer s) x'); cbn [rbind] in *; [|discriminate].
    rewrite E, E'. cbn [rbind]. rewrite Nat.add_succ_r. auto.
Qed.

Lemma held_deconv_stage a m : deconv_ok a -> held_deconv a m -> length m = layers a /\
  forall i s, nth_error m i = Some s -> (i < layers a)%nat /\ held_conv_transpose (layer_args a i) 0 (st_layer s) /\
    match st_normal s with Some f => keeps_shape 4 (channel a (i + 1)) f | None => True end.
Proof.
  intros D (u & m0 & E & L & V). pose proof (deconv_net_ok a D) as N. unfold new_deconv_net in E.
  destruct (cn_stages_lt 2 a (length (cn_channels a)) (fun i t c => high_order_convolution_transpose_layers t c (u i)) N) as (m1 & E1 & L1 & V1).
  { unfold layers. lia. }
  { intros i Hi. destruct D as (_ & G). destruct (G i Hi) as (_ & ->). cbn. eauto. }
  rewrite E in E1. injection E1 as <-. split; [congruence|]. intros i s Es.
  assert (Hi : (i < layers a)%nat) by (rewrite <- L1, <- L; apply nth_error_Some; congruence). split; [exact Hi|].
  destruct (nth_error m0 i) as [s0|] eqn:E0; [|apply nth_error_None in E0; lia].
  destruct (V i s0 s E0 Es) as ((w & Hw & Ew) & Nm), (V1 i s0 E0) as (El & _). destruct D as (_ & G). destruct (G i Hi) as (_ & T).
  rewrite T in El. cbn in El. injection El as El. split.
  - exists (u i), w. rewrite Ew. rewrite <- El in *. auto.
  - destruct (st_normal s0), (st_normal s); tauto.
Qed.

(** One layer with its normalisation. *)
Lemma deconv_stage a m i s x x' B B' H W b b' : deconv_ok a -> held_deconv a m -> nth_error m i = Some s ->
  deconv_fits a H -> deconv_fits a W ->
  shape x = [B; channel a i; dwidth a i H; dwidth a i W] -> shape x' = [B'; channel a i; dwidth a i H; dwidth a i W] ->
  exists y y', rbind (conv_transpose2d_forward (st_layer s) x) (st_apply (st_normal s)) = Ok y /\
    rbind (conv_transpose2d_forward (st_layer s) x') (st_apply (st_normal s)) = Ok y' /\
    shape y = [B; channel a (S i); dwidth a (S i) H; dwidth a (S i) W] /\ shape y' = [B'; channel a (S i); dwidth a (S i) H; dwidth a (S i) W] /\
    ((forall f, st_normal s = Some f -> samplewise f) -> (b < B)%nat -> (b' < B')%nat ->
      same_sample x x' b b' [channel a i; dwidth a i H; dwidth a i W] -> same_sample y y' b b' [channel a (S i); dwidth a (S i) H; dwidth a (S i) W]).
Proof.
  intros D Hm Es (H1 & FH) (W1 & FW) P P'. destruct (held_deconv_stage a m D Hm) as (L & V). destruct (V i s Es) as (Hi & Hs & Nm).
  assert (Pos : forall w, (1 <= w)%nat -> (forall j, (j < layers a)%nat -> (2 * cn_padding a < (dwidth a j w - 1) * a_stride (layer_args a j) + a_kernel (layer_args a j))%nat) -> (1 <= dwidth a i w)%nat).
  { intros w Hw F. destruct i as [|j]; [exact Hw|]. cbn [dwidth]. specialize (F j ltac:(lia)). lia. }
  destruct D as (_ & G). destruct (G i Hi) as (Gi & _). pose proof Gi as (_ & _ & _ & _ & K1 & S1 & _).
  assert (Full : forall w, full_size (layer_args a i) 0 w = ((w - 1) * a_stride (layer_args a i) + a_kernel (layer_args a i))%nat)
    by (intros w; unfold full_size; change (a_dilation (layer_args a i)) with 1%nat; lia).
  destruct (C38_transpose (layer_args a i) 0 (st_layer s) x B (dwidth a i H) (dwidth a i W) Gi eq_refl Hs P (Pos H H1 FH) (Pos W W1 FW)) as (y & Ey & Sy & Vy).
  { lia. } { rewrite Full. apply FH, Hi. } { rewrite Full. apply FW, Hi. }
  destruct (C38_transpose (layer_args a i) 0 (st_layer s) x' B' (dwidth a i H) (dwidth a i W) Gi eq_refl Hs P' (Pos H H1 FH) (Pos W W1 FW)) as (y' & Ey' & Sy' & Vy').
  { lia. } { rewrite Full. apply FH, Hi. } { rewrite Full. apply FW, Hi. }
  rewrite !Full in Sy, Sy'. change (a_padding (layer_args a i)) with (cn_padding a) in Sy, Sy'. change (a_out (layer_args a i)) with (channel a (i + 1)) in Sy, Sy', Vy, Vy'.
  rewrite Nat.add_1_r in *.
  assert (Q : (b < B)%nat -> (b' < B')%nat -> same_sample x x' b b' [channel a i; dwidth a i H; dwidth a i W] ->
    same_sample y y' b b' [channel a (S i); dwidth a (S i) H; dwidth a (S i) W]).
  { intros Hb Hb' Eq ix Hix. destruct ix as [|o [|p [|q [|? ?]]]]; cbn in Hix; try tauto. rewrite Vy, Vy' by tauto. apply Rmult_eq_compat_l.
    apply rsum_ext. intros c Hc. apply rsum_ext. intros h Hh. apply rsum_ext. intros w Hw. do 2 (apply rsum_ext; intros ? ?).
    rewrite (Eq [c; h; w]); [reflexivity|]. cbn. auto. }
  rewrite Ey, Ey'. cbn [rbind]. destruct (st_normal s) as [f|] eqn:En; cbn [st_apply].
  - destruct (Nm y) as (z & Ez & Sz); [now rewrite Sy|now rewrite Sy|]. destruct (Nm y') as (z' & Ez' & Sz'); [now rewrite Sy'|now rewrite Sy'|].
    exists z, z'. split; [exact Ez|]. split; [exact Ez'|]. split; [now rewrite Sz|]. split; [now rewrite Sz'|].
    intros Sw Hb Hb' Eq. exact (Sw f eq_refl y y' z z' B B' _ b b' Sy Sy' Hb Hb' (Q Hb Hb' Eq) Ez Ez').
  - exists y, y'. auto 6.
Qed.

Lemma deconv_pair a m x x' B B' H W b b' : deconv_ok a -> held_deconv a m ->
  shape x = [B; channel a 0; H; W] -> shape x' = [B'; channel a 0; H; W] -> deconv_fits a H -> deconv_fits a W ->
  exists y y', deconv_net_forward m x = Ok y /\ deconv_net_forward m x' = Ok y' /\
    shape y = [B; channel a (layers a); dwidth a (layers a) H; dwidth a (layers a) W] /\
    ((forall s f, In s m -> st_normal s = Some f -> samplewise f) -> (b < B)%nat -> (b' < B')%nat ->
      same_sample x x' b b' [channel a 0; H; W] -> same_sample y y' b b' [channel a (layers a); dwidth a (layers a) H; dwidth a (layers a) W]).
Proof.
  intros D Hm Hx Hx' FH FW. destruct (held_deconv_stage a m D Hm) as (L & _).
  destruct (run_pair conv_transpose2d_forward (fun i y y' =>
     shape y = [B; channel a i; dwidth a i H; dwidth a i W] /\ shape y' = [B'; channel a i; dwidth a i H; dwidth a i W] /\
    ((forall s f, In s m -> st_normal s = Some f -> samplewise f) -> (b < B)%nat -> (b' < B')%nat ->
      same_sample x x' b b' [channel a 0; H; W] -> same_sample y y' b b' [channel a i; dwidth a i H; dwidth a i W])) m 0) with (x := x) (x' := x') as (y & y' & E & E' & Sy & _ & Q); auto.
  - intros i s Es x0 x0' (S1 & S2 & P). cbn [Nat.add] in *.
    destruct (deconv_stage a m i s x0 x0' B B' H W b b' D Hm Es FH FW S1 S2) as (y & y' & E & E' & Sy & Sy' & Q).
    exists y, y'. split; [exact E|]. split; [exact E'|]. split; [exact Sy|]. split; [exact Sy'|]. intros Sw Hb Hb' Eq.
    apply Q; auto. intros f. apply Sw. eapply nth_error_In, Es.
  - rewrite <- L. exists y, y'. auto.
Qed.

(** Size of the output: every layer enlarges a width [w] to [(w-1)*stride + kernel - 2*padding]. *)
Theorem C67_shape : forall a m x B H W, deconv_ok a -> held_deconv a m ->
  shape x = [B; channel a 0; H; W] -> deconv_fits a H -> deconv_fits a W ->
  exists y, deconv_net_forward m x = Ok y /\ shape y = [B; channel a (layers a); dwidth a (layers a) H; dwidth a (layers a) W].
Proof.
  intros a m x B H W D Hm Hx FH FW. destruct (deconv_pair a m x x B B H W 0 0 D Hm Hx Hx FH FW) as (y & y' & E & _ & Sy & _). eauto.
Qed.
Print Assumptions C67_shape.

(** Every sample is treated on its own. *)
Theorem C67_samples_independent : forall a m x x' B B' H W b b', deconv_ok a -> held_deconv a m ->
  (forall s f, In s m -> st_normal s = Some f -> samplewise f) ->
  shape x = [B; channel a 0; H; W] -> shape x' = [B'; channel a 0; H; W] -> deconv_fits a H -> deconv_fits a W ->
  (b < B)%nat -> (b' < B')%nat ->
  (forall c h w, (c < channel a 0)%nat -> (h < H)%nat -> (w < W)%nat -> at_ x [b; c; h; w] = at_ x' [b'; c; h; w]) ->
  exists y y', deconv_net_forward m x = Ok y /\ deconv_net_forward m x' = Ok y' /\
    forall c h w, (c < channel a (layers a))%nat -> (h < dwidth a (layers a) H)%nat -> (w < dwidth a (layers a) W)%nat ->
      at_ y [b; c; h; w] = at_ y' [b'; c; h; w].
Proof.
  intros a m x x' B B' H W b b' D Hm Sw Hx Hx' FH FW Hb Hb' Eq.
  destruct (deconv_pair a m x x' B B' H W b b' D Hm Hx Hx' FH FW) as (y & y' & E & E' & _ & Q). exists y, y'. split; [exact E|]. split; [exact E'|].
  intros c h w Hc Hh Hw. apply (Q Sw Hb Hb'); [|cbn; auto]. intros ix Hix. destruct ix as [|c' [|h' [|w' [|? ?]]]]; cbn in Hix; try tauto. apply Eq; tauto.
Qed.
Print Assumptions C67_samples_independent.

(** A deconvolutional network with the kernels, strides and padding of a convolutional one, in reverse order, restores the width
    the latter started from, provided no convolution leaves columns unread at the end. *)
Theorem C67_mirror : forall a a' W, net_ok 2 a -> net_fits a W -> layers a' = layers a -> cn_padding a' = cn_padding a ->
  (forall i, (i < layers a)%nat -> a_kernel (layer_args a' i) = a_kernel (layer_args a (layers a - 1 - i)) /\
     a_stride (layer_args a' i) = a_stride (layer_args a (layers a - 1 - i))) ->
  (forall i, (i < layers a)%nat ->
     ((width a i W + 2 * cn_padding a - a_kernel (layer_args a i)) mod a_stride (layer_args a i) = 0)%nat) ->
  dwidth a' (layers a) (width a (layers a) W) = W.
Proof.
  intros a a' W (_ & G) F La P KS Mod.
  assert (M : forall i, (i <= layers a)%nat -> dwidth a' i (width a (layers a) W) = width a (layers a - i) W).
  { induction i as [|i IH]; intros Hi; [now rewrite Nat.sub_0_r|]. cbn [dwidth]. rewrite IH by lia.
    destruct (KS i ltac:(lia)) as (-> & ->). rewrite P. set (j := (layers a - 1 - i)%nat). replace (layers a - i)%nat with (S j) by lia.
    replace (layers a - S i)%nat with j by lia. assert (Hj : (j < layers a)%nat) by lia.
    destruct (G j Hj) as (Gj & _). pose proof Gj as (_ & _ & _ & _ & K1 & S1 & _). specialize (F j Hj). unfold fits in F. specialize (Mod j Hj).
    cbn [width]. unfold positions. change (a_dilation (layer_args a j)) with 1%nat in *. change (a_padding (layer_args a j)) with (cn_padding a) in *.
    set (k := a_kernel (layer_args a j)) in *. set (s := a_stride (layer_args a j)) in *. set (w := width a j W) in *.
    replace (w + 2 * cn_padding a - 1 * (k - 1) - 1)%nat with (w + 2 * cn_padding a - k)%nat by lia.
    pose proof (Nat.div_mod_eq (w + 2 * cn_padding a - k) s) as E. rewrite Mod in E. rewrite Nat.add_sub. lia. }
  rewrite M by lia. now rewrite Nat.sub_diag.
Qed.
Print Assumptions C67_mirror.

(** Two layers, 5x6 to 26x32. *)
Definition demo_deconv : cn_args := mkCN (Some (Scalar "continuous2d"%string)) (Some (Listed [3; 2; 7]%nat)) [2; 4; 3]%nat (Some (Scalar 2%nat)) [3; 4; 9]%nat
  true (Some 2) (Some (fun _ x => Ok x)) (Some (Listed [2; 3]%nat)) 1.
Example C67_case : exists m, deconv_ok demo_deconv /\ held_deconv demo_deconv m /\ deconv_fits demo_deconv 5 /\ deconv_fits demo_deconv 6 /\
  dwidth demo_deconv (layers demo_deconv) 5 = 26%nat /\ dwidth demo_deconv (layers demo_deconv) 6 = 32%nat.
Proof.
  assert (D : deconv_ok demo_deconv).
  { split; [cbn; lia|]. intros i Hi. cbn in Hi. split; [unfold good_args; destruct i as [|[|i]]; cbn; lia|reflexivity]. }
  destruct (C67_built demo_deconv (fun _ _ => 0) D) as (m & E & Lm). exists m. split; [exact D|]. split.
  { exists (fun _ _ => 0), m. split; [exact E|]. split; [reflexivity|]. intros i s0 s E0 Es. rewrite E0 in Es. injection Es as <-. split.
    - exists (cv_w (ct_conv (st_layer s0))). split; [reflexivity|]. destruct s0 as [[[]] ]; reflexivity.
    - unfold new_deconv_net, cn_stages in E. destruct (cn_check demo_deconv _); cbn [rbind] in E; [|discriminate].
      destruct (collect_spec _ _ _ _ E) as (_ & V). specialize (V i s0 E0). cbn [Nat.add] in V. unfold cn_stage in V.
      destruct (cn_layer demo_deconv _ i); cbn [rbind] in V; [|discriminate]. destruct (high_order_convolution_transpose_layers _ _ _); cbn [rbind] in V; [|discriminate].
      change (cn_normalization demo_deconv) with (Some (fun (_ : nat) (x : tensor R) => Ok x)) in V.
      destruct (py_get _ _); cbn [rbind] in V; [|discriminate]. injection V as <-. cbn [st_normal]. intros x _. eauto. }
  split; [split; [lia|]; intros i Hi; cbn in Hi; destruct i as [|[|i]]; cbn; lia|].
  split; [split; [lia|]; intros i Hi; cbn in Hi; destruct i as [|[|i]]; cbn; lia|]. split; reflexivity.
Qed.
(** The convolutional network mirrored by [demo_deconv]: 26 to 9 to 5. *)
Definition demo_mirror : cn_args := mkCN (Some (Scalar "polynomial2d"%string)) (Some (Scalar 3%nat)) [3; 4; 2]%nat (Some (Scalar 2%nat)) [4; 3]%nat
  true None None (Some (Listed [3; 2]%nat)) 1.
Example C67_mirror_case : net_ok 2 demo_mirror /\ net_fits demo_mirror 26 /\ width demo_mirror 2 26 = 5%nat /\
  dwidth demo_deconv (layers demo_mirror) (width demo_mirror (layers demo_mirror) 26) = 26%nat.
Proof.
  assert (N : net_ok 2 demo_mirror).
  { split; [cbn; lia|]. intros i Hi. cbn in Hi. split; [unfold good_args; destruct i as [|[|i]]; cbn; lia|]. exists PolynomialConv. cbn. auto 10. }
  assert (F : net_fits demo_mirror 26) by (intros i Hi; unfold fits; destruct i as [|[|i]]; cbn in *; lia).
  split; [exact N|]. split; [exact F|]. split; [reflexivity|].
  apply (C67_mirror demo_mirror demo_deconv 26 N F); try reflexivity; intros i Hi; cbn in Hi; destruct i as [|[|i]]; cbn; auto; lia.
Qed.
