(** * The variational autoencoder of examples/variational_autoencoder.py (C98). *)
From Coq Require Import String Reals ZArith List Lia Lra Bool.
From Verif Require Import Modules Spec Tensor Utils Convolution Layers Attention Vae ConvNetworks ExampleVae Observe ObserveConv ObserveConvNet ObserveAttention
  SumFacts TensorFacts AttentionFacts ConvFacts ConvNetFacts Prop_Conv Prop_ConvNet Prop_Deconv Prop_Vae.
Import ListNotations.
Local Open Scope R_scope.

(** Arguments of the encoder and of the decoder (sizes do not depend on the mode), and configurations with sensible sizes. *)
Definition enc (c : vae_cfg) : cn_args := part_args false (vc_layer_type c) (vc_encoder c).
Definition dec (c : vae_cfg) : cn_args := part_args false (vc_layer_type c) (vc_decoder c).
Definition vae_ok (c : vae_cfg) : Prop := net_ok 2 (enc c) /\ deconv_ok (dec c).

(** Models a user can hold: built, then given any weights, biases and normalisation states, and put into training or evaluation
    mode. *)
Definition later_stages {L} (P : L -> L -> Prop) (training : bool) (ch : nat -> nat) (l0 l : list (stage L)) : Prop :=
  length l = length l0 /\
  forall i s0 s, nth_error l0 i = Some s0 -> nth_error l i = Some s ->
    P (st_layer s0) (st_layer s) /\ exists b, st_normal s = Some (BatchNorm2d training b (ch (S i))).
Definition trained_transpose (t0 t : conv_transpose) : Prop :=
  exists w, shape w = shape (cv_w (ct_conv t0)) /\ t = mkConvT (conv_with_w (ct_conv t0) w) (ct_output_padding t0).
Definition later_linear (l0 l : tensor R * tensor R) : Prop := shape (fst l) = shape (fst l0) /\ shape (snd l) = shape (snd l0).
Definition vae_network (training : bool) (c : vae_cfg) (m : vae_net) : Prop :=
  exists training0 u draw du dl m0, new_vae_net training0 c u draw du dl = Ok m0 /\
    later_stages trained_layer training (channel (enc c)) (fc_stages (vn_encoder m0)) (fc_stages (vn_encoder m)) /\
    fc_pooling (vn_encoder m) = fc_pooling (vn_encoder m0) /\ fc_channels (vn_encoder m) = fc_channels (vn_encoder m0) /\
    later_stages trained_transpose training (channel (dec c)) (vn_decoder m0) (vn_decoder m) /\
    vn_in_channels m = vn_in_channels m0 /\ vn_latent m = vn_latent m0 /\
    later_linear (vn_mu m0) (vn_mu m) /\ later_linear (vn_var m0) (vn_var m) /\ later_linear (vn_dec m0) (vn_dec m).

(** ** Batch normalisation *)
Lemma bn_ok training b c x B H W : shape x = [B; c; H; W] -> (training = true -> (2 <= B)%nat) ->
  exists y, BatchNorm2d training b c x = Ok y /\ shape y = shape x.
Proof.
  intros Hx HB. unfold BatchNorm2d. rewrite Hx, Nat.eqb_refl. cbn [negb]. destruct training; cbn [andb]; [|eauto].
  specialize (HB eq_refl). destruct (Nat.eqb_spec (B * H * W) 1) as [E|]; [|eauto]. exfalso.
  destruct H as [|H]; [lia|]. destruct W as [|W]; [lia|]. nia.
Qed.
Lemma bn_keeps b c : keeps_shape 4 c (BatchNorm2d false b c).
Proof.
  intros x L C. destruct (shape x) as [|B [|c' [|H [|W [|? ?]]]]] eqn:Hx; try discriminate L. cbn in C. injection C as ->.
  rewrite <- Hx. apply (bn_ok false b c x B H W); auto. discriminate.
Qed.
Lemma bn_samplewise b c : samplewise (BatchNorm2d false b c).
Proof.
  intros x x' y y' B B' s i i' Hx Hx' Hi Hi' Eq Ey Ey' ix Hix. unfold BatchNorm2d in *. rewrite Hx in Ey. rewrite Hx' in Ey'.
  destruct s as [|c1 [|h [|w [|? ?]]]]; try discriminate Ey. destruct (Nat.eqb c1 c); cbn [negb andb] in *; [|discriminate Ey].
  injection Ey as <-. injection Ey' as <-. cbn [at_ nth]. rewrite (Eq ix Hix). destruct ix as [|? ?]; [cbn in Hix; contradiction|]. reflexivity.
Qed.

(** ** Shapes *)
Lemma run_shape {L} (fwd : L -> tensor R -> res (tensor R)) training ch sp B : forall (l : list (stage L)) k x,
  (forall i s, nth_error l i = Some s -> (exists b, st_normal s = Some (BatchNorm2d training b (ch (S (k + i))))) /\
     forall x, shape x = B :: ch (k + i)%nat :: sp (k + i)%nat -> exists z, fwd (st_layer s) x = Ok z /\ shape z = B :: ch (S (k + i)) :: sp (S (k + i))) ->
  (forall i, length (sp i) = 2%nat) -> (training = true -> (2 <= B)%nat) -> shape x = B :: ch k :: sp k ->
  exists y, run_stages fwd l x = Ok y /\ shape y = B :: ch (k + length l)%nat :: sp (k + length l)%nat.
Proof.
  induction l as [|s l IH]; intros k x Hl Hs HB Hx; cbn [run_stages length].
  - exists x. rewrite Nat.add_0_r. auto.
  - destruct (Hl 0%nat s eq_refl) as ((b & Eb) & Hf). rewrite Nat.add_0_r in *. destruct (Hf x Hx) as (z & Ez & Sz). rewrite Ez. cbn [rbind].
    pose proof (Hs (S k)) as L2. destruct (sp (S k)) as [|h [|w [|? ?]]] eqn:Es; try discriminate L2.
    destruct (bn_ok training b (ch (S k)) z B h w Sz HB) as (y & Ey & Sy). rewrite Eb. cbn [st_apply]. rewrite Ey. cbn [rbind].
    destruct (IH (S k) y) as (y' & Ey' & Sy'); auto.
    { intros i s' Hi. specialize (Hl (S i) s' Hi). now rewrite Nat.add_succ_r in Hl. }
    { now rewrite Sy, Es. }
    exists y'. rewrite Nat.add_succ_r. auto.
Qed.

(** What such a model is made of. *)
Lemma part_sizes t t' lt p : layers (part_args t lt p) = layers (part_args t' lt p) /\ channel (part_args t lt p) = channel (part_args t' lt p) /\
  layer_args (part_args t lt p) = layer_args (part_args t' lt p) /\ layer_type_of (part_args t lt p) = layer_type_of (part_args t' lt p).
Proof. repeat split. Qed.
Lemma net_ok_mode t lt p : net_ok 2 (part_args false lt p) -> net_ok 2 (part_args t lt p).
Proof. exact (fun H => H). Qed.

Lemma output_size_of d a e : net_ok d a -> fc_channels e = cn_channels a -> output_size e = channel a (layers a).
Proof.
  intros (C & _) E. unfold output_size, channel, layers. rewrite E. destruct (cn_channels a) as [|c l] using rev_ind; [cbn in C; lia|].
  rewrite last_last, app_length. cbn [length]. replace (length l + 1 - 1)%nat with (length l) by lia. now rewrite nth_middle.
Qed.

Record parts (training : bool) (c : vae_cfg) (m : vae_net) : Prop := mkParts {
  p_len : length (fc_stages (vn_encoder m)) = layers (enc c);
  p_enc : forall i s, nth_error (fc_stages (vn_encoder m)) i = Some s -> (i < layers (enc c))%nat /\
    (exists u draw l, high_order_convolution_layers (layer_type_of (enc c) i) (layer_args (enc c) i) u draw = Ok l /\ trained_layer l (st_layer s)) /\
    exists b, st_normal s = Some (BatchNorm2d training b (channel (enc c) (S i)));
  p_pool : fc_pooling (vn_encoder m) = "2d"%string;
  p_out : output_size (vn_encoder m) = channel (enc c) (layers (enc c));
  p_dlen : length (vn_decoder m) = layers (dec c);
  p_dec : forall i s, nth_error (vn_decoder m) i = Some s -> (i < layers (dec c))%nat /\ held_conv_transpose (layer_args (dec c) i) 0 (st_layer s) /\
    exists b, st_normal s = Some (BatchNorm2d training b (channel (dec c) (S i)));
  p_weights : vae_weights (vae_model m) (vc_latent_dim c) (channel (enc c) (layers (enc c)));
  p_in : vn_in_channels m = channel (dec c) 0 }.
Lemma network_parts training c m : vae_ok c -> vae_network training c m -> parts training c m.
Proof.
  intros (N & D) (t0 & u & draw & du & dl & m0 & E & He & Hp & Hc & Hd & Hi & Hl & Hm & Hv & Hx).
  unfold new_vae_net in E.
  destruct (new_net_built 2 (part_args t0 (vc_layer_type c) (vc_encoder c)) "2d" u draw N) as (e0 & Ee & _ & Pe & Ce).
  rewrite Ee in E. cbn [rbind] in E.
  destruct (C67_built (part_args t0 (vc_layer_type c) (vc_decoder c)) du D) as (d0 & Ed & Ld). rewrite Ed in E. cbn [rbind] in E. injection E as <-.
  cbn [vn_encoder vn_decoder vn_in_channels vn_latent vn_mu vn_var vn_dec] in *.
  pose proof N as (C & G). pose proof D as (CD & GD).
  destruct He as (Le & Ve). destruct Hd as (Lde & Vd).
  unfold new_conv_net in Ee.
  destruct (cn_stages_ok 2 (part_args t0 (vc_layer_type c) (vc_encoder c)) (length (cn_kernel_size (part_args t0 (vc_layer_type c) (vc_encoder c)))) (fun i t c => high_order_convolution_layers t c (u i) (draw i)) N (le_n _)) as (sts1 & E1 & L1 & V).
  { intros i Hi'. destruct (G i Hi') as (Gi & k & T). now apply (factory_ok _ 2 k). }
  rewrite E1 in Ee. cbn [rbind] in Ee. injection Ee as <-. cbn [fc_stages fc_pooling fc_channels] in *.
  unfold new_deconv_net in Ed.
  destruct (cn_stages_lt 2 (part_args t0 (vc_layer_type c) (vc_decoder c)) (length (cn_channels (part_args t0 (vc_layer_type c) (vc_decoder c)))) (fun i t c => high_order_convolution_transpose_layers t c (du i)) (deconv_net_ok _ D)) as (m1 & E2 & L2 & V2).
  { unfold layers. lia. }
  { intros i Hi'. destruct (GD i Hi') as (_ & T). change (layer_type_of (dec c) i) with (layer_type_of (part_args t0 (vc_layer_type c) (vc_decoder c)) i) in T. rewrite T. cbn. eauto. }
  rewrite Ed in E2. injection E2 as <-.
  assert (Out : output_size (vn_encoder m) = channel (enc c) (layers (enc c))) by (apply (output_size_of 2); auto).
  assert (Out0 : output_size {| fc_stages := sts1; fc_pooling := "2d"; fc_channels := cn_channels (part_args t0 (vc_layer_type c) (vc_encoder c)) |} = channel (enc c) (layers (enc c))) by (apply (output_size_of 2); auto).
  assert (In0 : hd 0%nat (pc_channels (vc_decoder c)) = channel (dec c) 0) by (unfold channel, dec; cbn; now destruct (pc_channels (vc_decoder c))).
  assert (Wm : shape (fst (vn_mu m)) = [vc_latent_dim c; channel (enc c) (layers (enc c))]) by (rewrite <- Out0; exact (proj1 Hm)).
  assert (Wv : shape (fst (vn_var m)) = [vc_latent_dim c; channel (enc c) (layers (enc c))]) by (rewrite <- Out0; exact (proj1 Hv)).
  assert (Wd : shape (fst (vn_dec m)) = [channel (dec c) 0; vc_latent_dim c]) by (rewrite <- In0; exact (proj1 Hx)).
  rewrite In0 in Hi.
  assert (L1' : length sts1 = layers (enc c)) by exact L1. assert (Ld' : length d0 = layers (dec c)) by exact Ld.
  constructor; auto.
  - rewrite Le. exact L1.
  - intros i s Es. assert (Hi' : (i < length sts1)%nat) by (rewrite <- Le; apply nth_error_Some; congruence).
    destruct (nth_error sts1 i) as [s0|] eqn:E0; [|apply nth_error_None in E0; lia].
    destruct (Ve i s0 s E0 Es) as (T & Nb). split; [rewrite <- L1'; exact Hi'|]. split; [|exact Nb]. exists (u i), (draw i), (st_layer s0). split; [exact (proj1 (V i s0 E0))|exact T].
  - rewrite Lde. exact L2.
  - intros i s Es. assert (Hi' : (i < length d0)%nat) by (rewrite <- Lde; apply nth_error_Some; congruence).
    destruct (nth_error d0 i) as [s0|] eqn:E0; [|apply nth_error_None in E0; lia].
    destruct (Vd i s0 s E0 Es) as (T & Nb). split; [rewrite <- Ld'; exact Hi'|]. split; [|exact Nb].
    destruct T as (w & Hw & Ew). pose proof (proj1 (V2 i s0 E0)) as El. destruct (GD i ltac:(rewrite <- Ld'; exact Hi')) as (_ & T).
    change (layer_type_of (dec c) i) with (layer_type_of (part_args t0 (vc_layer_type c) (vc_decoder c)) i) in T. rewrite T in El. cbn in El. injection El as El.
    exists (du i), w. rewrite Ew. rewrite <- El in *. auto.
  - constructor; cbn [vae_model va_latent va_mu_w va_var_w va_dec_w va_in_channels].
    + exact Hl.
    + exact Wm.
    + exact Wv.
    + rewrite Hi. exact Wd.
    + rewrite Hi. destruct (GD 0%nat ltac:(unfold layers; lia)) as ((_ & _ & G3 & _) & _). exact G3.
Qed.

(** ** C98 *)

(** With sensible sizes the model can be built. *)
Theorem C98_built : forall training c u draw du dl, vae_ok c -> exists m, new_vae_net training c u draw du dl = Ok m /\ vae_network training c m.
Proof.
  intros t c u draw du dl (N & D). unfold new_vae_net.
  destruct (new_net_built 2 (part_args t (vc_layer_type c) (vc_encoder c)) "2d" u draw N) as (e0 & Ee & _ & Pe & Ce).
  destruct (C67_built (part_args t (vc_layer_type c) (vc_decoder c)) du D) as (d0 & Ed & Ld). rewrite Ee. cbn [rbind]. rewrite Ed. cbn [rbind].
  eexists. split; [reflexivity|]. exists t, u, draw, du, dl. eexists. split; [unfold new_vae_net; rewrite Ee; cbn [rbind]; rewrite Ed; reflexivity|].
  cbn [vn_encoder vn_decoder vn_in_channels vn_latent vn_mu vn_var vn_dec]. pose proof N as (C & G). pose proof D as (CD & GD).
  assert (Le : length (fc_stages e0) = length (fc_stages e0)) by reflexivity.
  split; [|do 2 (split; [reflexivity|]); split; [|repeat split]].
  - split; [reflexivity|]. intros i s0 s E0 Es. rewrite E0 in Es. injection Es as <-. split; [apply trained_refl|].
    unfold new_conv_net in Ee.
    destruct (cn_stages_ok 2 (part_args t (vc_layer_type c) (vc_encoder c)) (length (cn_kernel_size (part_args t (vc_layer_type c) (vc_encoder c)))) (fun i t c => high_order_convolution_layers t c (u i) (draw i)) N (le_n _)) as (sts1 & E1 & L1 & V).
    { intros j Hj. destruct (G j Hj) as (Gi & k & T). now apply (factory_ok _ 2 k). }
    rewrite E1 in Ee. cbn [rbind] in Ee. injection Ee as <-. cbn [fc_stages] in E0. exists bn_fresh. rewrite (proj2 (V i s0 E0)). cbn. now rewrite Nat.add_1_r.
  - split; [reflexivity|]. intros i s0 s E0 Es. rewrite E0 in Es. injection Es as <-. split.
    { exists (cv_w (ct_conv (st_layer s0))). split; [reflexivity|]. destruct s0 as [[[]] ]; reflexivity. }
    unfold new_deconv_net in Ed.
    destruct (cn_stages_lt 2 (part_args t (vc_layer_type c) (vc_decoder c)) (length (cn_channels (part_args t (vc_layer_type c) (vc_decoder c)))) (fun i t c => high_order_convolution_transpose_layers t c (du i)) (deconv_net_ok _ D)) as (m1 & E2 & L2 & V2).
    { unfold layers. lia. }
    { intros j Hj. destruct (GD j Hj) as (_ & T). change (layer_type_of (dec c) j) with (layer_type_of (part_args t (vc_layer_type c) (vc_decoder c)) j) in T. rewrite T. cbn. eauto. }
    rewrite Ed in E2. injection E2 as <-. exists bn_fresh. rewrite (proj2 (V2 i s0 E0)). cbn. now rewrite Nat.add_1_r.
Qed.
Print Assumptions C98_built.

(** Encoder and decoder share the layer type, and decoders exist for "continuous2d" only. *)
Theorem C98_only_continuous2d : forall training c u draw du dl m, new_vae_net training c u draw du dl = Ok m ->
  vc_layer_type c = "continuous2d"%string.
Proof.
  intros t c u draw du dl m E. unfold new_vae_net in E. destruct (new_conv_net _ _ _ _) as [e|]; cbn [rbind] in E; [|discriminate].
  destruct (new_deconv_net _ _) as [d|] eqn:Ed; cbn [rbind] in E; [|discriminate].
  destruct (C67_only_continuous2d _ _ _ Ed) as (L & T). assert (C : (2 <= length (pc_channels (vc_decoder c)))%nat).
  { unfold new_deconv_net, cn_stages, cn_check in Ed. destruct (Nat.ltb_spec (length (cn_channels (part_args t (vc_layer_type c) (vc_decoder c)))) 2); [discriminate|]. exact H. }
  apply (T 0%nat). unfold layers. cbn. lia.
Qed.
Print Assumptions C98_only_continuous2d.

Definition side (c : vae_cfg) : nat := dwidth (dec c) (layers (dec c)) 1.
Definition out_channels (c : vae_cfg) : nat := channel (dec c) (layers (dec c)).

Lemma encoder_shape training c m x B H W : vae_ok c -> vae_network training c m -> (training = true -> (2 <= B)%nat) ->
  shape x = [B; channel (enc c) 0; H; W] -> (1 <= H)%nat -> (1 <= W)%nat -> net_fits (enc c) H -> net_fits (enc c) W ->
  exists r, conv_net_forward (vn_encoder m) x = Ok r /\ shape r = [B; channel (enc c) (layers (enc c))].
Proof.
  intros O M HB Hx H1 W1 FH FW. destruct (network_parts _ _ _ O M) as [Le Pe Pp Po _ _ _ _]. destruct O as ((C & G) & _).
  destruct (run_shape conv_layer_forward training (channel (enc c)) (fun i => [width (enc c) i H; width (enc c) i W]) B (fc_stages (vn_encoder m)) 0 x) as (y & Ey & Sy); auto.
  { intros i s Es. destruct (Pe i s Es) as (Hi & (u & draw & l & El & T) & Nb). cbn [Nat.add]. split; [exact Nb|]. intros x0 Hx0.
    destruct (G i Hi) as (Gi & k & Tk).
    destruct (layer_shape _ 2 k _ u draw l (st_layer s) x0 B [width (enc c) i H; width (enc c) i W] Tk Gi El T Hx0 eq_refl) as (z & Ez & Sz).
    { intros w [<-|[<-|[]]]; [now apply FH|now apply FW]. }
    exists z. split; [exact Ez|]. rewrite Sz. cbn [a_out layer_args width map]. now rewrite Nat.add_1_r. }
  cbn [Nat.add] in Sy. rewrite Le in Sy.
  destruct (pool_ok 2 y [B; channel (enc c) (layers (enc c))] [width (enc c) (layers (enc c)) H; width (enc c) (layers (enc c)) W] Sy eq_refl (or_intror eq_refl)) as (p & Ep & Sp & _).
  { pose proof (width_pos (enc c) (layers (enc c)) H H1). pose proof (width_pos (enc c) (layers (enc c)) W W1). cbn [prodn]. nia. }
  destruct (flatten1_ok p B (channel (enc c) (layers (enc c)) :: repeat 1%nat 2) Sp) as (r & Er & Sr & _); [discriminate|].
  exists r. split; [|rewrite Sr; cbn [repeat prodn]; f_equal; f_equal; lia].
  unfold conv_net_forward. rewrite Ey. cbn [rbind]. rewrite Pp. cbn. rewrite Ep. exact Er.
Qed.

Lemma decoder_shape training c m z B : vae_ok c -> vae_network training c m -> (training = true -> (2 <= B)%nat) -> deconv_fits (dec c) 1 ->
  shape z = [B; channel (dec c) 0; 1; 1]%nat ->
  exists y, deconv_net_forward (vn_decoder m) z = Ok y /\ shape y = [B; out_channels c; side c; side c].
Proof.
  intros O M HB (_ & F) Hz. destruct (network_parts _ _ _ O M) as [_ _ _ _ Ld Pd _ _]. destruct O as (_ & (C & G)).
  destruct (run_shape conv_transpose2d_forward training (channel (dec c)) (fun i => [dwidth (dec c) i 1; dwidth (dec c) i 1]) B (vn_decoder m) 0 z) as (y & Ey & Sy); auto.
  { intros i s Es. destruct (Pd i s Es) as (Hi & Hs & Nb). cbn [Nat.add]. split; [exact Nb|]. intros x0 Hx0. destruct (G i Hi) as (Gi & _).
    assert (Pos : (1 <= dwidth (dec c) i 1)%nat) by (destruct i as [|j]; [cbn; lia|]; cbn [dwidth]; specialize (F j ltac:(lia)); lia).
    pose proof Gi as (_ & _ & _ & _ & K1 & S1 & _).
    assert (Full : forall w, full_size (layer_args (dec c) i) 0 w = ((w - 1) * a_stride (layer_args (dec c) i) + a_kernel (layer_args (dec c) i))%nat)
      by (intros w; unfold full_size; change (a_dilation (layer_args (dec c) i)) with 1%nat; lia).
    destruct (C38_transpose (layer_args (dec c) i) 0 (st_layer s) x0 B (dwidth (dec c) i 1) (dwidth (dec c) i 1) Gi eq_refl Hs Hx0 Pos Pos) as (y & Ey & Sy & _).
    { lia. } { rewrite Full. apply F, Hi. } { rewrite Full. apply F, Hi. }
    exists y. split; [exact Ey|]. rewrite Sy, Full. cbn [dwidth]. change (a_padding (layer_args (dec c) i)) with (cn_padding (dec c)).
    change (a_out (layer_args (dec c) i)) with (channel (dec c) (i + 1)). now rewrite Nat.add_1_r. }
  cbn [Nat.add] in Sy. rewrite Ld in Sy. exists y. split; [exact Ey|exact Sy].
Qed.

(** What the model computes for a batch of images, in both modes (in training mode for at least two images): the encoder gives
    one number per channel of its last layer; mean and log-variance are affine in them; the decoder gets affine images of
    [mean + noise * exp (log_var / 2)] and makes square pictures whose size depends on the decoder's arguments only. *)
Theorem C98_forward : forall training c m noise x B H W, vae_ok c -> vae_network training c m -> (training = true -> (2 <= B)%nat) ->
  shape x = [B; channel (enc c) 0; H; W] -> (1 <= H)%nat -> (1 <= W)%nat -> net_fits (enc c) H -> net_fits (enc c) W -> deconv_fits (dec c) 1 ->
  let F := channel (enc c) (layers (enc c)) in let D := vc_latent_dim c in
  exists r y mu lv z, conv_net_forward (vn_encoder m) x = Ok r /\ shape r = [B; F] /\
    deconv_net_forward (vn_decoder m) z = Ok y /\ shape z = [B; channel (dec c) 0; 1; 1]%nat /\ shape y = [B; out_channels c; side c; side c] /\
    vae_net_forward m noise x = Ok [y; x; mu; lv] /\ shape mu = [B; D] /\ shape lv = [B; D] /\
    (forall b d, (b < B)%nat -> (d < D)%nat ->
       at_ mu [b; d] = affine F (fst (vn_mu m)) (snd (vn_mu m)) (fun k => at_ r [b; k]) d /\
       at_ lv [b; d] = affine F (fst (vn_var m)) (snd (vn_var m)) (fun k => at_ r [b; k]) d) /\
    (forall b k, (b < B)%nat -> (k < channel (dec c) 0)%nat ->
       at_ z [b; k; 0; 0]%nat = affine D (fst (vn_dec m)) (snd (vn_dec m)) (fun d => at_ mu [b; d] + noise [b; d] * exp (at_ lv [b; d] / 2)) k).
Proof.
  intros training c m noise x B H W O M HB Hx H1 W1 FH FW FD F D.
  destruct (encoder_shape _ _ _ x B H W O M HB Hx H1 W1 FH FW) as (r & Er & Sr).
  pose proof (network_parts _ _ _ O M) as P. pose proof (p_in _ _ _ P) as Pi.
  destruct (C62_forward (vae_model m) noise x D F r B [F] (p_weights _ _ _ P) Er Sr) as (mu & lv & z & Ef & _ & Sm & Sl & Sz & Vm & Vz); [discriminate|cbn; lia|].
  cbn [vae_model va_in_channels va_decoder va_mu_w va_mu_b va_var_w va_var_b va_dec_w va_dec_b] in *. rewrite Pi in *.
  destruct (decoder_shape _ _ _ z B O M HB FD Sz) as (y & Ey & Sy).
  exists r, y, mu, lv, z. do 5 (split; [assumption|]). split; [unfold vae_net_forward; rewrite Ef, Ey; reflexivity|].
  split; [exact Sm|]. split; [exact Sl|]. split; [|exact Vz]. intros b d Hb Hd. destruct (Vm b d Hb Hd) as (-> & ->).
  unfold affine. split; f_equal; apply rsum_ext; intros k Hk; cbn [unravel prodn]; now rewrite Nat.div_1_r.
Qed.
Print Assumptions C98_forward.

(** Sizes that torch broadcasts. *)
Definition compatible (p q : nat) : Prop := p = q \/ p = 1%nat \/ q = 1%nat.
Lemma bsize_compatible p q : (compatible p q -> exists d, bsize p q = Some d /\ (1 <= p -> 1 <= q -> 1 <= d)%nat) /\ (~ compatible p q -> bsize p q = None).
Proof.
  unfold compatible, bsize. split; intros Hc; destruct (Nat.eqb_spec p q), (Nat.eqb_spec q 1), (Nat.eqb_spec p 1); subst; eauto; try tauto; exfalso; tauto.
Qed.
Lemma mse_defined a b s : bshape (shape a) (shape b) = Some s -> (1 <= prodn s)%nat -> exists v, mse_loss a b = Ok (Some v).
Proof.
  intros E P. unfold mse_loss, broadcast2. rewrite E. cbn [rbind]. unfold numel. cbn [shape]. destruct (Nat.eqb_spec (prodn s) 0); [lia|]. eauto.
Qed.
Lemma mse_undefined a b : bshape (shape a) (shape b) = None -> mse_loss a b = Err RuntimeError.
Proof. intros E. unfold mse_loss, broadcast2. now rewrite E. Qed.
Lemma side_pos c : deconv_fits (dec c) 1 -> (1 <= side c)%nat.
Proof.
  intros (_ & F). unfold side. destruct (layers (dec c)) as [|j] eqn:E; [cbn; lia|]. cbn [dwidth]. specialize (F j ltac:(lia)). lia.
Qed.
Lemma out_channels_pos c : vae_ok c -> (1 <= out_channels c)%nat.
Proof.
  intros (_ & (C & G)). unfold out_channels. destruct (G (layers (dec c) - 1)%nat ltac:(unfold layers; lia)) as ((_ & _ & _ & G4 & _) & _).
  cbn [a_out layer_args] in G4. replace (layers (dec c) - 1 + 1)%nat with (layers (dec c)) in G4 by (unfold layers in *; lia). exact G4.
Qed.

(** The loss exists iff the pictures of the decoder and the images have the same numbers of channels, rows and columns up to
    numbers 1, which are broadcast; otherwise the step raises RuntimeError. *)
Theorem C98_step : forall training c m noise x B H W, vae_ok c -> vae_network training c m -> (training = true -> (2 <= B)%nat) -> (1 <= B)%nat ->
  shape x = [B; channel (enc c) 0; H; W] -> (1 <= H)%nat -> (1 <= W)%nat -> net_fits (enc c) H -> net_fits (enc c) W -> deconv_fits (dec c) 1 ->
  (compatible (out_channels c) (channel (enc c) 0) /\ compatible (side c) H /\ compatible (side c) W ->
   exists l r k, vae_eval_step c m noise x = Ok (mkLosses (Some l) (Some r) (Some k))) /\
  (~ (compatible (out_channels c) (channel (enc c) 0) /\ compatible (side c) H /\ compatible (side c) W) ->
   vae_eval_step c m noise x = Err RuntimeError).
Proof.
  intros training c m noise x B H W O M HB B1 Hx H1 W1 FH FW FD.
  destruct (C98_forward training c m noise x B H W O M HB Hx H1 W1 FH FW FD) as (r & y & mu & lv & z & _ & _ & _ & _ & Sy & Ef & Sm & Sl & _).
  unfold vae_eval_step. rewrite Ef. cbn [rbind]. unfold loss_function, arg. cbn [nth_error rbind].
  assert (C1 : (1 <= channel (enc c) 0)%nat) by (destruct O as ((C & G) & _); destruct (G 0%nat ltac:(unfold layers; lia)) as ((_ & _ & G3 & _) & _); exact G3).
  pose proof (side_pos c FD) as S1. pose proof (out_channels_pos c O) as O1.
  destruct (bsize_compatible (out_channels c) (channel (enc c) 0)) as (Y1 & N1), (bsize_compatible (side c) H) as (Y2 & N2), (bsize_compatible (side c) W) as (Y3 & N3).
  assert (EB : bsize B B = Some B) by (unfold bsize; now rewrite Nat.eqb_refl).
  assert (Bs : bshape (shape y) (shape x) = match bsize (out_channels c) (channel (enc c) 0), bsize (side c) H, bsize (side c) W with
    | Some d1, Some d2, Some d3 => Some [B; d1; d2; d3] | _, _, _ => None end).
  { rewrite Sy, Hx. unfold bshape. cbn [rev app bshape_rev]. rewrite EB. destruct (bsize (out_channels c) _), (bsize (side c) H), (bsize (side c) W); reflexivity. }
  split.
  - intros (K1 & K2 & K3). destruct (Y1 K1) as (d1 & E1 & P1), (Y2 K2) as (d2 & E2 & P2), (Y3 K3) as (d3 & E3 & P3). rewrite E1, E2, E3 in Bs.
    destruct (mse_defined y x _ Bs) as (v & ->).
    { cbn [prodn]. specialize (P1 O1 C1). specialize (P2 S1 H1). specialize (P3 S1 W1). nia. }
    cbn [rbind].
    destruct (broadcast_same Rminus (tmap (fun v => 1 + v) lv) (tmap (fun m => m ^ 2) mu)) as (t & -> & St & _); [cbn; congruence|]. cbn [rbind].
    destruct (broadcast_same Rminus t (tmap exp lv)) as (u & -> & Su & _); [exact St|]. cbn [rbind].
    rewrite Su, St. cbn [tmap shape]. rewrite Sl. destruct (Nat.eqb_spec B 0); [lia|]. cbn [nscale nplus]. eauto.
  - intros K. rewrite mse_undefined; [reflexivity|]. rewrite Bs. destruct (bsize (out_channels c) (channel (enc c) 0)) eqn:E1; [|reflexivity].
    destruct (bsize (side c) H) eqn:E2; [|reflexivity]. destruct (bsize (side c) W) eqn:E3; [|reflexivity]. exfalso. apply K.
    assert (Dc : forall p q, compatible p q \/ ~ compatible p q) by (intros p q; unfold compatible; lia).
    split; [|split].
    + destruct (Dc (out_channels c) (channel (enc c) 0)) as [|Nc]; auto. discriminate (N1 Nc).
    + destruct (Dc (side c) H) as [|Nc]; auto. discriminate (N2 Nc).
    + destruct (Dc (side c) W) as [|Nc]; auto. discriminate (N3 Nc).
Qed.
Print Assumptions C98_step.

(** If the pictures have the shape of the images, the loss is the mean squared error of the reconstruction plus M_N times the
    divergence of the posteriors; the entry "KLD" is minus the divergence. *)
Theorem C98_loss : forall training c m noise x B H W, vae_ok c -> vae_network training c m -> (training = true -> (2 <= B)%nat) -> (1 <= B)%nat ->
  shape x = [B; channel (enc c) 0; H; W] -> (1 <= H)%nat -> (1 <= W)%nat -> net_fits (enc c) H -> net_fits (enc c) W -> deconv_fits (dec c) 1 ->
  out_channels c = channel (enc c) 0 -> side c = H -> side c = W ->
  exists y mu lv rec div, vae_net_forward m noise x = Ok [y; x; mu; lv] /\ shape y = shape x /\
    vae_eval_step c m noise x = Ok (mkLosses (Some (rec + vc_M_N c * div)) (Some rec) (Some (- div))) /\
    rec = rsum (numel x) (fun k => (at_ y (unravel (shape x) k) - at_ x (unravel (shape x) k)) ^ 2) / INR (numel x) /\
    div = rsum B (fun b => rsum (vc_latent_dim c) (fun d => kl (at_ mu [b; d]) (at_ lv [b; d]))) / INR B.
Proof.
  intros training c m noise x B H W O M HB B1 Hx H1 W1 FH FW FD Eo Eh Ew.
  destruct (C98_forward training c m noise x B H W O M HB Hx H1 W1 FH FW FD) as (r & y & mu & lv & z & _ & _ & _ & _ & Sy & Ef & Sm & Sl & _).
  assert (S : shape y = shape x) by (rewrite Sy, Hx; congruence).
  assert (C1 : (1 <= channel (enc c) 0)%nat) by (rewrite <- Eo; now apply out_channels_pos).
  destruct (C51_loss y x mu lv (vc_M_N c) B (vc_latent_dim c) S) as (rec & div & El & Er & Ed & _); auto.
  { unfold numel. rewrite Hx. cbn [prodn]. nia. }
  exists y, mu, lv, rec, div. split; [exact Ef|]. split; [exact S|]. split; [|auto]. unfold vae_eval_step. rewrite Ef. exact El.
Qed.
Print Assumptions C98_loss.

(** The five images drawn after an epoch, in evaluation and in training mode. *)
Theorem C98_sampled : forall training c m noise, vae_ok c -> vae_network training c m -> deconv_fits (dec c) 1 ->
  exists z y, sampled_images m noise = Ok y /\ deconv_net_forward (vn_decoder m) z = Ok y /\ shape y = [5; out_channels c; side c; side c]%nat /\
    forall b k, (b < 5)%nat -> (k < channel (dec c) 0)%nat ->
      at_ z [b; k; 0; 0]%nat = affine (vc_latent_dim c) (fst (vn_dec m)) (snd (vn_dec m)) (fun d => noise [b; d]) k.
Proof.
  intros training c m noise O M F. pose proof (network_parts _ _ _ O M) as P. destruct (p_weights _ _ _ P) as [Wl _ _ Wd Wc]. pose proof (p_in _ _ _ P) as Pi.
  unfold sampled_images, vae_sample, vae_decode. cbn [vae_model va_latent va_dec_w va_dec_b va_in_channels va_decoder] in *. rewrite Pi in *. rewrite Wl.
  destruct (linear2_ok (fst (vn_dec m)) (snd (vn_dec m)) (mkT [5; vc_latent_dim c]%nat noise) 5 (vc_latent_dim c) _ eq_refl Wd) as (z1 & -> & Sz1 & Vz1). cbn [rbind].
  destruct (view_infer_ok z1 [] [channel (dec c) 0; 1; 1]%nat 5) as (z & -> & Sz & Vz); [cbn [app prodn]; lia|unfold numel; rewrite Sz1; cbn [app prodn]; ring|]. cbn [rbind app] in *.
  destruct (decoder_shape training c m z 5 O M ltac:(lia) F Sz) as (y & Ey & Sy). exists z, y. split; [exact Ey|]. split; [exact Ey|]. split; [exact Sy|].
  intros b k Hb Hk. rewrite (Vz [b; k; 0; 0]%nat [b; k]); [|rewrite Sz1; cbn; auto|rewrite Sz1; cbn; ring]. rewrite Vz1. reflexivity.
Qed.
Print Assumptions C98_sampled.

(** A model just built, in evaluation mode, knows nothing of the images: for the same noise it returns the same mean, log-variance
    and pictures for any two batches of the same shape. *)
Theorem C98_fresh_ignores_images : forall c u draw du dl m noise x x' B H W, vae_ok c -> new_vae_net false c u draw du dl = Ok m ->
  shape x = [B; channel (enc c) 0; H; W] -> shape x' = [B; channel (enc c) 0; H; W] ->
  (1 <= H)%nat -> (1 <= W)%nat -> net_fits (enc c) H -> net_fits (enc c) W -> deconv_fits (dec c) 1 ->
  exists y y' mu mu' lv lv', vae_net_forward m noise x = Ok [y; x; mu; lv] /\ vae_net_forward m noise x' = Ok [y'; x'; mu'; lv'] /\
    teq y y' /\ teq mu mu' /\ teq lv lv'.
Proof.
  intros c u draw du dl m noise x x' B H W O E Hx Hx' H1 W1 FH FW FD.
  destruct (C98_built false c u draw du dl O) as (m1 & E1 & M). rewrite E in E1. injection E1 as <-.
  destruct (C98_forward false c m noise x B H W O M ltac:(discriminate) Hx H1 W1 FH FW FD) as (r & y & mu & lv & z & Er & Sr & Ey & Sz & Sy & Ef & Sm & Sl & Vm & Vz).
  destruct (C98_forward false c m noise x' B H W O M ltac:(discriminate) Hx' H1 W1 FH FW FD) as (r' & y' & mu' & lv' & z' & Er' & Sr' & Ey' & Sz' & Sy' & Ef' & Sm' & Sl' & Vm' & Vz').
  exists y, y', mu, mu', lv, lv'. split; [exact Ef|]. split; [exact Ef'|].
  pose proof O as (N & D). pose proof N as (C & G). pose proof D as (CD & GD).
  assert (T : vc_layer_type c = "continuous2d"%string) by (eapply C98_only_continuous2d, E).
  assert (Req : teq r r').
  { destruct (C66_fresh_network_is_constant (enc c) u draw x x' B H W N) as (e & q & q' & Ee & Eq & Eq' & Teq); auto.
    - intros i _. unfold layer_type_of. cbn. rewrite T. discriminate.
    - intros f Ef0 k. cbn in Ef0. injection Ef0 as <-. split; [apply bn_keeps|]. intros a a' b b' (Sa & Va) Ea Ea'. unfold BatchNorm2d in *. rewrite <- Sa in Ea'.
      destruct (shape a) as [|b0 [|c0 [|h0 [|w0 [|? ?]]]]] eqn:Sh; try discriminate Ea. destruct (Nat.eqb c0 k); cbn [negb andb] in *; [|discriminate Ea].
      injection Ea as <-. injection Ea' as <-. split; [reflexivity|]. cbn [shape at_]. intros ix V. now rewrite Va.
    - unfold new_vae_net in E. change (part_args false (vc_layer_type c) (vc_encoder c)) with (enc c) in E. rewrite Ee in E. cbn [rbind] in E.
      destruct (new_deconv_net _ _); cbn [rbind] in E; [|discriminate]. injection E as <-. cbn [vn_encoder] in *. congruence. }
  destruct Req as (_ & Vr). rewrite Sr in Vr.
  assert (Mu : forall b d, (b < B)%nat -> (d < vc_latent_dim c)%nat -> at_ mu [b; d] = at_ mu' [b; d] /\ at_ lv [b; d] = at_ lv' [b; d]).
  { intros b d Hb Hd. destruct (Vm b d Hb Hd) as (-> & ->), (Vm' b d Hb Hd) as (-> & ->).
    unfold affine. split; f_equal; apply rsum_ext; intros k Hk; rewrite Vr by (cbn; auto); reflexivity. }
  assert (Zeq : forall b k, (b < B)%nat -> (k < channel (dec c) 0)%nat -> at_ z [b; k; 0; 0]%nat = at_ z' [b; k; 0; 0]%nat).
  { intros b k Hb Hk. rewrite Vz, Vz' by auto. unfold affine. f_equal. apply rsum_ext. intros d Hd. now destruct (Mu b d Hb Hd) as (-> & ->). }
  assert (Hd : held_deconv (dec c) (vn_decoder m)).
  { unfold new_vae_net in E. destruct (new_conv_net _ _ _ _); cbn [rbind] in E; [|discriminate].
    destruct (new_deconv_net _ _) as [d0|] eqn:Ed; cbn [rbind] in E; [|discriminate]. injection E as <-. cbn [vn_decoder] in *.
    exists du, d0. split; [exact Ed|]. split; [reflexivity|]. intros i s0 s E0 Es. rewrite E0 in Es. injection Es as <-. split.
    - exists (cv_w (ct_conv (st_layer s0))). split; [reflexivity|]. destruct s0 as [[[]] ]; reflexivity.
    - destruct (p_dec _ _ _ (network_parts _ _ _ O M) i s0 E0) as (_ & _ & b & ->). rewrite Nat.add_1_r. apply bn_keeps. }
  split; [|split].
  - split; [congruence|]. rewrite Sy. intros ix Hix. destruct ix as [|b [|k [|p [|q [|? ?]]]]]; cbn in Hix; try tauto.
    destruct (C67_samples_independent (dec c) (vn_decoder m) z z' B B 1 1 b b D Hd) as (w & w' & Ew & Ew' & Vw); auto; try tauto.
    + intros s f Hs Ef0. apply In_nth_error in Hs. destruct Hs as (i & Hi). destruct (p_dec _ _ _ (network_parts _ _ _ O M) i s Hi) as (_ & _ & b0 & Eb).
      rewrite Eb in Ef0. injection Ef0 as <-. apply bn_samplewise.
    + intros k0 h w0 Hk Hh Hw. assert (h = 0%nat) by lia. assert (w0 = 0%nat) by lia. subst. apply Zeq; tauto.
    + rewrite Ey in Ew. injection Ew as <-. rewrite Ey' in Ew'. injection Ew' as <-. apply Vw; tauto.
  - split; [congruence|]. rewrite Sm. intros ix Hix. destruct ix as [|b [|k [|? ?]]]; cbn in Hix; try tauto. now apply Mu.
  - split; [congruence|]. rewrite Sl. intros ix Hix. destruct ix as [|b [|k [|? ?]]]; cbn in Hix; try tauto. now apply Mu.
Qed.
Print Assumptions C98_fresh_ignores_images.

(** The shipped configuration: pictures of 3 x 32 x 32, the shape of the CIFAR-10 images, so there is a loss; for images of any
    other size, except with a single row or column, the step raises. *)
Lemma shipped_ok : vae_ok shipped_vae.
Proof.
  split; [split; [cbn; lia|]|split; [cbn; lia|]]; intros i Hi; cbn in Hi.
  - split; [unfold good_args; destruct i as [|[|[|i]]]; cbn; lia|]. exists PiecewiseConv. cbn. auto.
  - split; [unfold good_args; destruct i as [|[|[|[|i]]]]; cbn; lia|]. reflexivity.
Qed.
Theorem C98_shipped : forall training m noise x B H W, vae_network training shipped_vae m -> (training = true -> (2 <= B)%nat) -> (1 <= B)%nat ->
  shape x = [B; 3; H; W]%nat -> (1 <= H)%nat -> (1 <= W)%nat ->
  side shipped_vae = 32%nat /\ out_channels shipped_vae = 3%nat /\
  (compatible 32 H /\ compatible 32 W -> exists l r k, vae_eval_step shipped_vae m noise x = Ok (mkLosses (Some l) (Some r) (Some k))) /\
  (~ (compatible 32 H /\ compatible 32 W) -> vae_eval_step shipped_vae m noise x = Err RuntimeError).
Proof.
  intros training m noise x B H W M HB B1 Hx H1 W1. split; [reflexivity|]. split; [reflexivity|].
  assert (Fits : forall w, (1 <= w)%nat -> net_fits (enc shipped_vae) w).
  { intros w Hw i Hi. unfold fits. change (a_dilation (layer_args (enc shipped_vae) i)) with 1%nat. change (a_padding (layer_args (enc shipped_vae) i)) with 1%nat.
    pose proof (width_pos (enc shipped_vae) i w Hw). destruct i as [|[|[|i]]]; cbn in Hi; try lia; cbn [layer_args a_kernel enc part_args cn_kernel_size shipped_vae vc_encoder pc_kernel_size nth]; lia. }
  assert (FD : deconv_fits (dec shipped_vae) 1) by (split; [lia|]; intros i Hi; cbn in Hi; destruct i as [|[|[|[|i]]]]; cbn; lia).
  destruct (C98_step training shipped_vae m noise x B H W shipped_ok M HB B1 Hx H1 W1 (Fits H H1) (Fits W W1) FD) as (P & Q).
  change (side shipped_vae) with 32%nat in *. change (out_channels shipped_vae) with 3%nat in *. change (channel (enc shipped_vae) 0) with 3%nat in *.
  assert (compatible 3 3) by now left. split; [intros (K1 & K2); apply P; auto|intros K; apply Q; tauto].
Qed.
Print Assumptions C98_shipped.

(** Such a model exists; a step on two CIFAR images gives a loss, on two images of 64 x 64 it raises. *)
Example C98_case : exists m, vae_network true shipped_vae m /\
  (exists l, vae_eval_step shipped_vae m (fun _ => 1) (zeros [2; 3; 32; 32]%nat) = Ok l) /\
  vae_eval_step shipped_vae m (fun _ => 1) (zeros [2; 3; 64; 64]%nat) = Err RuntimeError.
Proof.
  destruct (C98_built true shipped_vae (fun _ _ => 0) (fun _ _ => 0) (fun _ _ => 0) (fun _ _ => 0) shipped_ok) as (m & _ & M). exists m. split; [exact M|]. split.
  - destruct (C98_shipped true m (fun _ => 1) (zeros [2; 3; 32; 32]%nat) 2 32 32 M) as (_ & _ & P & _); auto; try lia. destruct P as (l & r & k & E); [|eauto].
    split; left; reflexivity.
  - destruct (C98_shipped true m (fun _ => 1) (zeros [2; 3; 64; 64]%nat) 2 64 64 M) as (_ & _ & _ & Q); auto; try lia. apply Q. unfold compatible. lia.
Qed.
