(** * Transposed convolutions with groups (C113). *)
From Coq Require Import Reals ZArith List Lia Lra Psatz Bool.
From Verif Require Import Spec Tensor Utils LagrangePolynomial Basis PolynomialLayers Expand Convolution Layers ConvOptions DeconvOptions
  Observe ObserveConv SumFacts TensorFacts LagrangeFacts LayerFacts SegmentFacts LayerProofs ExpandFacts ConvFacts AttentionFacts
  Prop_Conv Prop_ConvOptions Prop_DeconvAnalysis.
Import ListNotations.
Local Open Scope R_scope.

(** Layers a user can hold: built by the constructor, then given any weights. *)
Definition held_deconv_opt (a : conv_args) (op g : nat) (t : conv_transpose_opt) : Prop :=
  exists m u t0 w, new_conv_transpose2d_opt a op g m u = Ok t0 /\ shape w = shape (cv_w (ct_conv (tt_conv t0))) /\ t = deconv_opt_with_w t0 w.
(** The weights of kernel position [i, j] from input channel [c] to the output channel [o] of its group. *)
Definition kernel_g (a : conv_args) (t : conv_transpose_opt) (c o i j : nat) : nat -> R := kernel_t a (tt_conv t) c o i j.
(** The sum over the kernel positions of an output that are aligned with a pixel [h, w]. *)
Definition over_kernel (a : conv_args) (H W p q : nat) (f : nat -> nat -> nat -> nat -> R) : R :=
  rsum (a_kernel a) (fun i => rsum (a_kernel a) (fun j =>
    match feeds a H p i, feeds a W q j with Some h, Some w => f i j h w | _, _ => 0 end)).

(** ** Which groups are accepted *)
Theorem C113_constructible : forall a op g m u,
  ((exists t, new_conv_transpose2d_opt a op g m u = Ok t) <->
   m = Zeros /\ g <> 0%nat /\ ((conv_nb PiecewiseConv (a_n a) (a_segments a) * a_in a) mod g = 0)%nat /\ (a_out a mod g = 0)%nat) /\
  ((~ exists t, new_conv_transpose2d_opt a op g m u = Ok t) -> new_conv_transpose2d_opt a op g m u = Err ValueError).
Proof.
  intros a op g m u. unfold new_conv_transpose2d_opt. cbv zeta.
  destruct m; try (split; [split; [intros (t & E); discriminate|intros (E & _); discriminate]|reflexivity]).
  destruct (check_groups g (conv_nb PiecewiseConv (a_n a) (a_segments a) * a_in a) (a_out a)) as [[]|e] eqn:Ec; cbn [rbind].
  - apply check_groups_ok in Ec. split; [split; [intros _|eauto]|intros N; exfalso; apply N; eauto].
    split; [reflexivity|]. split; [lia|]. tauto.
  - assert (Ne : check_groups g (conv_nb PiecewiseConv (a_n a) (a_segments a) * a_in a) (a_out a) <> Ok tt) by congruence.
    pose proof (check_groups_err _ _ _ Ne) as E'. rewrite Ec in E'. injection E' as ->. split; [|reflexivity].
    split; [intros (t & E); discriminate|]. intros (_ & D1 & D2 & D3). exfalso. apply Ne. apply check_groups_ok. split; [lia|]. now split.
Qed.
Print Assumptions C113_constructible.

Lemma held_deconv_opt_eq a op g t : held_deconv_opt a op g t ->
  (1 <= g)%nat /\ ((conv_nb PiecewiseConv (a_n a) (a_segments a) * a_in a) mod g = 0)%nat /\ (a_out a mod g = 0)%nat /\
  exists w, t = mkOptT (mkConvT (conv_of PiecewiseConv a w) op) g /\
    shape w = [(conv_nb PiecewiseConv (a_n a) (a_segments a) * a_in a)%nat; (a_out a / g)%nat; a_kernel a; a_kernel a].
Proof.
  intros (m & u & t0 & w & E & Sh & ->). unfold new_conv_transpose2d_opt in E. cbv zeta in E. destruct m; try discriminate.
  destruct (check_groups g _ _) as [[]|] eqn:Ec; [|discriminate]. pose proof (proj1 (check_groups_ok _ _ _) Ec) as (D1 & D2 & D3).
  split; [exact D1|]. split; [exact D2|]. split; [exact D3|]. cbn [rbind] in E. injection E as <-. exists w. split; [reflexivity|exact Sh].
Qed.

Lemma conv_transpose2d_groups_value g w s p op d t C per k B H W H' W' :
  shape w = [C; per; k; k] -> shape t = [B; C; H; W] ->
  conv_transpose_size H k s p op d = Some H' -> conv_transpose_size W k s p op d = Some W' ->
  exists y, conv_transpose2d_groups g w s p op d t = Ok y /\ shape y = [B; (per * g)%nat; H'; W'] /\
  forall b o y' z', at_ y [b; o; y'; z'] =
    rsum (C / g) (fun c => rsum H (fun y => rsum W (fun z => rsum k (fun i => rsum k (fun j =>
      if (Nat.eqb (y * s + i * d) (y' + p) && Nat.eqb (z * s + j * d) (z' + p))%bool
      then at_ t [b; (o / per * (C / g) + c)%nat; y; z] * at_ w [(o / per * (C / g) + c)%nat; (o mod per)%nat; i; j] else 0))))).
Proof.
  intros Sw St EH EW. unfold conv_transpose2d_groups. rewrite Sw, St, Nat.eqb_refl, EH, EW.
  eexists. split; [reflexivity|]. split; [reflexivity|]. reflexivity.
Qed.

(** The sums over the image pick the aligned pixel. *)
Lemma spread_sum a H W p q (f : nat -> nat -> nat -> nat -> R) : (1 <= a_stride a)%nat ->
  rsum H (fun h => rsum W (fun w => rsum (a_kernel a) (fun i => rsum (a_kernel a) (fun j =>
      if (Nat.eqb (h * a_stride a + i * a_dilation a) (p + a_padding a) && Nat.eqb (w * a_stride a + j * a_dilation a) (q + a_padding a))%bool
      then f i j h w else 0)))) = over_kernel a H W p q f.
Proof.
  intros S1. unfold over_kernel.
  transitivity (rsum H (fun h => rsum (a_kernel a) (fun i => rsum (a_kernel a) (fun j => rsum W (fun w =>
      if (Nat.eqb (h * a_stride a + i * a_dilation a) (p + a_padding a) && Nat.eqb (w * a_stride a + j * a_dilation a) (q + a_padding a))%bool
      then f i j h w else 0))))).
  { apply rsum_ext. intros h Hh. rewrite rsum_swap. apply rsum_ext. intros i Hi. apply rsum_swap. }
  rewrite rsum_swap. apply rsum_ext. intros i Hi. rewrite rsum_swap. apply rsum_ext. intros j Hj.
  transitivity (rsum H (fun h => if Nat.eqb (h * a_stride a + i * a_dilation a) (p + a_padding a)
      then match feeds a W q j with Some w => f i j h w | None => 0 end else 0)).
  { apply rsum_ext. intros h Hh. destruct (Nat.eqb (h * a_stride a + i * a_dilation a) (p + a_padding a)); cbn [andb].
    - apply (rsum_feeds a W q j (fun w => f i j h w) S1).
    - apply rsum_0. }
  rewrite (rsum_feeds a H p i (fun h => match feeds a W q j with Some w => f i j h w | None => 0 end) S1).
  destruct (feeds a H p i); reflexivity.
Qed.
Lemma over_kernel_ext a H W p q f g : (1 <= a_stride a)%nat ->
  (forall i j h w, (i < a_kernel a)%nat -> (j < a_kernel a)%nat -> (h < H)%nat -> (w < W)%nat -> f i j h w = g i j h w) ->
  over_kernel a H W p q f = over_kernel a H W p q g.
Proof.
  intros S1 E. unfold over_kernel. apply rsum_ext. intros i Hi. apply rsum_ext. intros j Hj.
  destruct (feeds a H p i) as [h|] eqn:E1; [|reflexivity]. destruct (feeds a W q j) as [w|] eqn:E2; [|reflexivity].
  apply feeds_spec in E1; [|exact S1]. apply feeds_spec in E2; [|exact S1]. apply E; tauto.
Qed.

(** ** The general form: every expanded channel [f], that is, basis function [f mod nb] of input channel [f / nb], belongs to
    one group, whichever channel it comes from. *)
Theorem C113_value : forall a op g t x B H W, good_args a -> a_length a = 2 -> held_deconv_opt a op g t ->
  shape x = [B; a_in a; H; W] -> spreads a op H -> spreads a op W ->
  let nb := conv_nb PiecewiseConv (a_n a) (a_segments a) in let per_group := (nb * a_in a / g)%nat in let outs := (a_out a / g)%nat in
  exists y, conv_transpose2d_opt_forward t x = Ok y /\
  shape y = [B; a_out a; (full_size a op H - 2 * a_padding a)%nat; (full_size a op W - 2 * a_padding a)%nat] /\
  forall b o p q, (b < B)%nat -> (o < a_out a)%nat ->
    at_ y [b; o; p; q] = output_scale a * rsum per_group (fun e => over_kernel a H W p q (fun i j h w =>
      let f := (o / outs * per_group + e)%nat in
      at_ (cv_w (ct_conv (tt_conv t))) [f; (o mod outs)%nat; i; j] * basis_value PiecewiseConv a (f mod nb) (at_ x [b; (f / nb)%nat; h; w]))).
Proof.
  intros a op g t x B H W G HL Ht Hx (H1 & Hop & FH) (W1 & _ & FW) nb per_group outs.
  destruct (held_deconv_opt_eq a op g t Ht) as (Hg & D & DO & w & -> & Sw). fold nb in D, Sw. fold outs in Sw.
  pose proof G as (G1 & G2 & _ & _ & G5 & G6 & _). pose proof (conv_nb_pos PiecewiseConv _ _ G1 G2) as Pnb. fold nb in Pnb.
  assert (EC : (per_group * g = a_in a * nb)%nat) by (unfold per_group; apply Nat.div_exact in D; [lia|lia]).
  unfold conv_transpose2d_opt_forward. cbn [tt_conv tt_groups ct_conv ct_output_padding conv_of cv_kind cv_n cv_segments cv_length cv_periodicity cv_w cv_stride cv_padding cv_dilation cv_rescale]. cbv zeta.
  destruct (conv_expansion_ok PiecewiseConv true (a_n a) (a_segments a) (a_length a) G1 G2) as [Ok1 Nb].
  destruct (expanded2d (conv_expansion PiecewiseConv true (a_n a) (a_segments a) (a_length a)) (tmap (apply_periodicity (conv_per PiecewiseConv a)) x) B (a_in a) H W) as (t & Et & St & Vt); auto.
  rewrite Et. cbn [rbind]. rewrite Nb in *. fold nb in St, Vt.
  rewrite (Nat.mul_comm nb) in Sw.
  destruct (conv_transpose2d_groups_value g w (a_stride a) (a_padding a) op (a_dilation a) t _ _ _ _ _ _ _ _ Sw St
    (transpose_size a op H G H1 Hop FH) (transpose_size a op W G W1 Hop FW)) as (y & Ey & Sy & Vy).
  rewrite Ey. cbn [rbind]. eexists; split; [reflexivity|]. split.
  { cbn [tmap shape]. rewrite Sy. unfold outs. apply Nat.div_exact in DO; [|lia]. now rewrite (Nat.mul_comm (a_out a / g) g), <- DO. }
  intros b o p q Hb Ho. cbn [tmap at_]. rewrite Vy. rewrite Rmult_comm. unfold output_scale. fold (rescale_of a).
  apply (f_equal (Rmult (rescale_of a))). rewrite (Nat.mul_comm (a_in a) nb). fold per_group. apply rsum_ext. intros e He.
  rewrite spread_sum by exact G6. apply over_kernel_ext; [exact G6|]. intros i j h z Hi Hj Hh Hz. rewrite Rmult_comm.
  apply (f_equal (Rmult _)). pose proof (group_inside g (a_out a) per_group o e Hg DO Ho He) as I. rewrite EC in I. fold outs in I.
  rewrite Vt by assumption. cbn [tmap at_]. apply basis_value_eq; [exact G|exact HL|]. apply Nat.mod_upper_bound. lia.
Qed.
Print Assumptions C113_value.

(** ** When the number of groups divides the number of input channels: each output channel is a transposed convolution of the
    channels of its group. *)
Theorem C113_whole_channels : forall a op g t x B H W, good_args a -> a_length a = 2 -> held_deconv_opt a op g t ->
  (a_in a mod g = 0)%nat -> shape x = [B; a_in a; H; W] -> spreads a op H -> spreads a op W ->
  let ins := (a_in a / g)%nat in let outs := (a_out a / g)%nat in
  exists y, conv_transpose2d_opt_forward t x = Ok y /\
  shape y = [B; a_out a; (full_size a op H - 2 * a_padding a)%nat; (full_size a op W - 2 * a_padding a)%nat] /\
  forall b o p q, (b < B)%nat -> (o < a_out a)%nat ->
    at_ y [b; o; p; q] = output_scale a * rsum ins (fun e => over_kernel a H W p q (fun i j h w =>
      let c := (o / outs * ins + e)%nat in
      conv_link PiecewiseConv (a_n a) (a_segments a) (a_length a) (a_periodicity a) (kernel_g a t c (o mod outs) i j) (at_ x [b; c; h; w]))).
Proof.
  intros a op g t x B H W G HL Ht DI Hx FH FW ins outs.
  destruct (held_deconv_opt_eq a op g t Ht) as (Hg & _).
  destruct (C113_value a op g t x B H W G HL Ht Hx FH FW) as (y & E & Sh & V).
  exists y. split; [exact E|]. split; [exact Sh|]. intros b o p q Hb Ho. rewrite V by assumption.
  apply (f_equal (Rmult (output_scale a))). rewrite per_group_split by assumption. rewrite rsum_mul. apply rsum_ext. intros c Hc.
  unfold over_kernel. rewrite rsum_swap. apply rsum_ext. intros i Hi. rewrite rsum_swap. apply rsum_ext. intros j Hj.
  destruct (feeds a H p i) as [h|]; [|apply rsum_0]. destruct (feeds a W q j) as [w|]; [|apply rsum_0]. cbv zeta.
  change (a_periodicity a) with (conv_per PiecewiseConv a). rewrite <- link_of_basis by assumption. apply rsum_ext. intros v Hv.
  fold ins outs. unfold kernel_g, kernel_t. destruct (group_channel (o / outs) ins _ c v Hv) as [-> ->].
  apply (f_equal (fun k => at_ (cv_w (ct_conv (tt_conv t))) [k; (o mod outs)%nat; i; j] * _)). ring.
Qed.
Print Assumptions C113_whole_channels.

(** ** One group is the layer without this option, in outputs and errors *)
Theorem C113_default : forall t x, same_result (conv_transpose2d_opt_forward (mkOptT t 1) x) (conv_transpose2d_forward t x).
Proof.
  intros t x. unfold conv_transpose2d_opt_forward, conv_transpose2d_forward. cbn [tt_conv tt_groups]. cbv zeta.
  destruct (Expansion2d _ _) as [z|e]; cbn [rbind]; [|reflexivity].
  unfold conv_transpose2d_groups, conv_transpose2d. destruct (shape (cv_w (ct_conv t))) as [|C [|per [|k [|k' [|]]]]]; try reflexivity.
  destruct (shape z) as [|B [|C' [|H [|W [|]]]]]; try reflexivity. destruct (Nat.eqb C C'); [|reflexivity].
  destruct (conv_transpose_size H k _ _ _ _) as [H'|]; [|reflexivity]. destruct (conv_transpose_size W k' _ _ _ _) as [W'|]; [|reflexivity].
  cbn [rbind same_result]. split; [cbn; now rewrite Nat.mul_1_r|]. intros ix V. cbn [tmap shape] in V. rewrite Nat.mul_1_r in V.
  destruct ix as [|b [|o [|y [|z0 [|]]]]]; cbn in V; try tauto. cbn [tmap at_].
  rewrite Nat.div_1_r, (Nat.div_small o per), (Nat.mod_small o per) by tauto. reflexivity.
Qed.
Print Assumptions C113_default.
Theorem C113_default_constructor : forall a op u, new_conv_transpose2d_opt a op 1 Zeros u = Ok (mkOptT (new_conv_transpose2d a op u) 1).
Proof. intros a op u. unfold new_conv_transpose2d_opt, check_groups. cbn [Nat.eqb negb]. rewrite !Nat.mod_1_r, Nat.div_1_r. reflexivity. Qed.
Print Assumptions C113_default_constructor.

(** ** Groups do not see each other *)
Theorem C113_groups_independent : forall a op g t x x' B H W k y y', good_args a -> a_length a = 2 -> held_deconv_opt a op g t ->
  (a_in a mod g = 0)%nat -> shape x = [B; a_in a; H; W] -> shape x' = [B; a_in a; H; W] -> spreads a op H -> spreads a op W ->
  conv_transpose2d_opt_forward t x = Ok y -> conv_transpose2d_opt_forward t x' = Ok y' ->
  (forall b c h w, (c / (a_in a / g) = k)%nat -> at_ x [b; c; h; w] = at_ x' [b; c; h; w]) ->
  forall b o p q, (b < B)%nat -> (o < a_out a)%nat -> (o / (a_out a / g) = k)%nat -> at_ y [b; o; p; q] = at_ y' [b; o; p; q].
Proof.
  intros a op g t x x' B H W k y y' G HL Ht DI Hx Hx' FH FW E E' Eq b o p q Hb Ho Hk.
  destruct (C113_whole_channels a op g t x B H W G HL Ht DI Hx FH FW) as (z & Ez & _ & V). rewrite E in Ez. injection Ez as <-.
  destruct (C113_whole_channels a op g t x' B H W G HL Ht DI Hx' FH FW) as (z & Ez & _ & V'). rewrite E' in Ez. injection Ez as <-.
  rewrite V, V' by assumption. apply (f_equal (Rmult (output_scale a))). apply rsum_ext. intros e He. apply over_kernel_ext.
  { destruct G as (_ & _ & _ & _ & _ & G6 & _). exact G6. }
  intros i j h w Hi Hj Hh Hw. cbv zeta. f_equal. apply Eq. rewrite Hk.
  rewrite Nat.add_comm, Nat.div_add by lia. rewrite Nat.div_small by exact He. reflexivity.
Qed.
Print Assumptions C113_groups_independent.

Lemma one_segment n w x : (1 <= n)%nat -> link (pw_link PiecewisePolynomial n 1 2 None w) 0 0 x = interp n 2 w x.
Proof.
  intros Hn. set (l := pw_link PiecewisePolynomial n 1 2 None w). unfold link, link0, piece.
  assert (Z2 : seg l x = 0%nat) by (pose proof (seg_lt l x (le_n 1)) as Z; cbn [l pw_link pw_segments with_w new_piecewise] in *; lia).
  change (apply_periodicity (pw_periodicity l) x) with x. rewrite Z2.
  assert (X2 : x_local l x (Z.of_nat 0) = x) by (unfold x_local, eta, pw_half; cbn; field).
  rewrite X2. change (pw_n l) with n. apply interp_ext. intros k Hk. reflexivity.
Qed.
(** ** A number of groups which splits channels: with one input channel and as many groups and outputs as nodes, output channel 0
    has the first basis function only and vanishes at the other nodes, whatever the weights. *)
Theorem C113_split_channel_refuted : forall n, (2 <= n)%nat ->
  let a := mkConvArgs n 1 1 n 1 2 false None 1 1 0 1 in
  (forall u, exists t, new_conv_transpose2d_opt a 0 n Zeros u = Ok t) /\
  exists x, shape x = [1; 1; 1; 1]%nat /\ forall t, held_deconv_opt a 0 n t ->
    exists y, conv_transpose2d_opt_forward t x = Ok y /\ at_ y [0; 0; 0; 0]%nat = 0.
Proof.
  intros n Hn a. assert (G : good_args a) by (unfold good_args, a; cbn; lia). assert (NB : conv_nb PiecewiseConv n 1 = n) by (cbn; lia). split.
  - intros u. apply C113_constructible. cbn [a a_n a_segments a_in a_out]. rewrite NB, Nat.mul_1_r, Nat.mod_same by lia. repeat split. lia.
  - set (s := node n 2 1). exists (mkT [1; 1; 1; 1]%nat (fun _ => s)). split; [reflexivity|]. intros t Ht.
    assert (SP : spreads a 0 1) by (unfold spreads, full_size, a; cbn; lia).
    destruct (C113_value a 0 n t (mkT [1; 1; 1; 1]%nat (fun _ => s)) 1 1 1 G eq_refl Ht eq_refl SP SP) as (y & E & Sh & V).
    cbv zeta in V. exists y. split; [exact E|]. rewrite V; [|lia|unfold a; cbn; lia].
    change (a_n a) with n. change (a_in a) with 1%nat. change (a_segments a) with 1%nat. change (a_out a) with n.
    rewrite NB, Nat.mul_1_r, Nat.div_same by lia. cbn [rsum]. rewrite Nat.div_0_l by lia.
    cbn [Nat.mul Nat.add at_]. rewrite !Nat.mod_0_l by lia.
    replace (basis_value PiecewiseConv a 0 s) with 0.
    + unfold over_kernel. rewrite (rsum_zero (a_kernel a)); [ring|]. intros i Hi. apply rsum_zero. intros j Hj.
      destruct (feeds a 1 0 i); [|reflexivity]. destruct (feeds a 1 0 j); [ring|reflexivity].
    + unfold basis_value. cbn [conv_link]. rewrite pw_link_out; [|unfold a; cbn; lia|unfold a; cbn; lia|now left].
      change (conv_per PiecewiseConv a) with (@None R). change (a_n a) with n. change (a_segments a) with 1%nat. change (a_length a) with 2.
      rewrite one_segment by lia. unfold s. rewrite interp_node by (try lra; lia). reflexivity.
Qed.
Print Assumptions C113_split_channel_refuted.

Example C113_case : exists t, held_deconv_opt (mkConvArgs 3 2 4 6 3 2 false None 1 2 1 1) 1 2 t /\
  (4 mod 2 = 0)%nat /\ spreads (mkConvArgs 3 2 4 6 3 2 false None 1 2 1 1) 1 5 /\ good_args (mkConvArgs 3 2 4 6 3 2 false None 1 2 1 1).
Proof.
  destruct (proj2 (proj1 (C113_constructible (mkConvArgs 3 2 4 6 3 2 false None 1 2 1 1) 1 2 Zeros (fun _ => 0)))) as [t E].
  { repeat split. discriminate. }
  exists t. split; [|split; [reflexivity|split; [unfold spreads, full_size; cbn; lia|unfold good_args; cbn; lia]]].
  exists Zeros, (fun _ => 0), t, (cv_w (ct_conv (tt_conv t))). split; [exact E|]. split; [reflexivity|]. destruct t as [[[] ?] ?]; reflexivity.
Qed.
