(** * The examples stage by stage: further theorems on C37, C91, C92, C93, C94 and C98. *)
From Coq Require Import String Reals Lra ZArith List Lia Bool Arith.
From Verif Require Import Modules Spec Tensor Utils Normalization LagrangePolynomial Basis PolynomialLayers Refine ProductLayer Expand Convolution LagrangeND
  Layers Networks ConvNetworks LayerNorm Vae Examples ExampleVae Observe ObserveConv ObserveNet ObserveConvNet SumFacts TensorFacts NormFacts LayerFacts LayerProofs ConvFacts HeapFacts NetFacts NetCopy
  AttentionFacts ConvNetFacts Prop_Norm Prop_Conv Prop_Factory Prop_MLP NetTypes Prop_Rows Prop_Images Prop_Refining.
Import ListNotations.
Local Open Scope R_scope.

(** ** What the stages are *)

(** Offsets inside a window of two rows and two columns. *)
Definition in_window (p : nat * nat) : Prop := (fst p < 2 /\ snd p < 2)%nat.
Definition window (z : tensor R) (b c i j : nat) (p : nat * nat) : R := at_ z [b; c; 2 * i + fst p; 2 * j + snd p]%nat.
(** Images of half as many rows and columns, a last odd one being dropped, related to the windows by [P]. *)
Definition pooled (P : (nat * nat -> R) -> R -> Prop) (z p : tensor R) : Prop := exists B C H W, shape z = [B; C; H; W] /\ (2 <= H)%nat /\ (2 <= W)%nat /\
  shape p = [B; C; H / 2; W / 2]%nat /\ forall b c i j, (b < B)%nat -> (c < C)%nat -> (i < H / 2)%nat -> (j < W / 2)%nat -> P (window z b c i j) (at_ p [b; c; i; j]).
Definition mean_pooled : tensor R -> tensor R -> Prop :=
  pooled (fun f v => v = (f (0, 0)%nat + f (0, 1)%nat + f (1, 0)%nat + f (1, 1)%nat) / 4).
Definition max_pooled : tensor R -> tensor R -> Prop := pooled (is_largest in_window).
(** Negative entries are replaced by 0. *)
Definition cut (z y : tensor R) : Prop := shape y = shape z /\ forall ix, at_ y ix = if Rle_dec 0 (at_ z ix) then at_ z ix else 0.
(** Samples as rows, in the order of the indices. *)
Definition flattened (z y : tensor R) : Prop := exists B s, shape z = B :: s /\ shape y = [B; prodn s] /\
  forall b jx, (b < B)%nat -> valid s jx -> at_ y [b; ravel s jx] = at_ z (b :: jx).

Lemma Ok_inj {A} (a b : A) : Ok a = Ok b -> a = b.
Proof. intros E. now injection E. Qed.
Lemma avg_pool_spec z p : avg_pool2d z = Ok p -> mean_pooled z p.
Proof.
  unfold avg_pool2d, pool2d. destruct (shape z) as [|B [|C [|H [|W [|? ?]]]]] eqn:Sz; try discriminate.
  destruct (Nat.ltb_spec H 2); [discriminate|]. destruct (Nat.ltb_spec W 2); [discriminate|]. cbn [orb]. intros E. apply Ok_inj in E. subst p.
  exists B, C, H, W. do 4 (split; [auto|]). intros b c i j _ _ _ _. unfold window. cbn [at_ fst snd].
  now rewrite (Nat.add_0_r (2 * i)), (Nat.add_0_r (2 * j)).
Qed.
Lemma max_pool_spec z p : max_pool2d z = Ok p -> max_pooled z p.
Proof.
  unfold max_pool2d, pool2d. destruct (shape z) as [|B [|C [|H [|W [|? ?]]]]] eqn:Sz; try discriminate.
  destruct (Nat.ltb_spec H 2); [discriminate|]. destruct (Nat.ltb_spec W 2); [discriminate|]. cbn [orb]. intros E. apply Ok_inj in E. subst p.
  exists B, C, H, W. do 4 (split; [auto|]). intros b c i j _ _ _ _. cbn [at_]. set (f := window z b c i j).
  assert (E : forall p q, at_ z [b; c; 2 * i + p; 2 * j + q]%nat = f (p, q)) by reflexivity.
  replace (at_ z [b; c; 2 * i; 2 * j]%nat) with (f (0, 0)%nat) by (rewrite <- E; now rewrite ?(Nat.add_0_r (2 * i)), ?(Nat.add_0_r (2 * j))).
  replace (at_ z [b; c; 2 * i; 2 * j + 1]%nat) with (f (0, 1)%nat) by (rewrite <- E; now rewrite ?(Nat.add_0_r (2 * i)), ?(Nat.add_0_r (2 * j))).
  replace (at_ z [b; c; 2 * i + 1; 2 * j]%nat) with (f (1, 0)%nat) by (rewrite <- E; now rewrite ?(Nat.add_0_r (2 * i)), ?(Nat.add_0_r (2 * j))).
  rewrite (E 1 1)%nat. split.
  - assert (In_ : forall p q, (p < 2)%nat -> (q < 2)%nat -> in_window (p, q)) by (intros p q Hp Hq; split; assumption).
    assert (K : forall p q, (p < 2)%nat -> (q < 2)%nat -> exists a, in_window a /\ f a = f (p, q)) by (intros p q Hp Hq; exists (p, q); auto).
    unfold Rmax. repeat destruct Rle_dec; apply K; lia.
  - intros [p q] (Hp & Hq). cbn in Hp, Hq. pose proof (Rmax_l (f (0, 0)%nat) (f (0, 1)%nat)). pose proof (Rmax_r (f (0, 0)%nat) (f (0, 1)%nat)).
    pose proof (Rmax_l (f (1, 0)%nat) (f (1, 1)%nat)). pose proof (Rmax_r (f (1, 0)%nat) (f (1, 1)%nat)).
    pose proof (Rmax_l (Rmax (f (0, 0)%nat) (f (0, 1)%nat)) (Rmax (f (1, 0)%nat) (f (1, 1)%nat))).
    pose proof (Rmax_r (Rmax (f (0, 0)%nat) (f (0, 1)%nat)) (Rmax (f (1, 0)%nat) (f (1, 1)%nat))).
    destruct p as [|[|p]], q as [|[|q]]; try lia; lra.
Qed.
Lemma relu_spec z : cut z (relu z).
Proof. split; [reflexivity|]. intros ix. unfold relu, tmap, Rmax. cbn [at_]. destruct (Rle_dec 0 (at_ z ix)); reflexivity. Qed.
Lemma flat_spec z y : view_infer [nth 0 (shape z) 0%nat] [] z = Ok y -> flattened z y.
Proof.
  destruct (shape z) as [|B s] eqn:Sz; [discriminate|]. cbn [nth]. intros E. destruct (Nat.eq_dec B 0) as [->|HB]; [discriminate|].
  destruct (nd_view z B s Sz HB) as (y' & Ey & Sy & V). rewrite Sz in Ey. cbn [nth] in Ey. rewrite E in Ey. injection Ey as <-.
  exists B, s. split; [exact Sz|]. split; [exact Sy|]. intros b jx Hb Hj. rewrite V by now apply ravel_lt. now rewrite unravel_ravel.
Qed.

Ltac stage E v := match type of E with rbind ?r _ = Ok _ => let Ev := fresh "E" v in destruct r as [v|] eqn:Ev; cbn [rbind] in E; [|discriminate] end.

(** ** examples/mnist.py *)

(** [held l k c i o]: [l] is a convolution of class [k] from [i] to [o] channels with the other settings of [c], from its construction on. *)
Definition mnist_layer (k : conv_kind) (c : mnist_cfg) (i o : nat) (l : any_conv) : Prop := exists l', l = HighOrder (Layer2d l') /\
  held_conv2d k (mkConvArgs (mc_n c) (mc_segments c) i o (mc_kernel_size c) 2 false None 1 1 0 1) l'.
Definition normalizes (c : mnist_cfg) (x y : tensor R) : Prop :=
  (mc_normalization c = "max_abs"%string -> max_abs_normalization_nd x (1 / 1000000) = Ok y) /\
  (mc_normalization c = "max_center"%string -> max_center_normalization_nd x (1 / 1000000) = Ok y).

Lemma in_net_layer c k i o l : mnist_ok c k -> conv_in_net c i o l -> mnist_layer k c i o l.
Proof.
  intros [T _ _ _ _ _ _ _] (u & draw & l0 & E & Tr). unfold mnist_conv, rmap in E. rewrite (proj2 (conv_factory_class _ 2 k T)) in E. cbn [Nat.eqb] in E.
  unfold class2d, rmap in E. destruct (new_conv2d k _ u draw) as [l1|] eqn:E1; [|discriminate]. cbn [rbind] in E. injection E as <-.
  destruct l as [l|[l|l]]; cbn in Tr; try contradiction. destruct Tr as (w & Sw & ->). eexists. split; [reflexivity|]. exists u, draw, l1, w. auto.
Qed.
Lemma net_normalizes c k m h x y : mnist_ok c k -> mnist_network c m h -> mn_normalize m x = Ok y -> normalizes c x y.
Proof.
  intros O N E. destruct (network_parts c k m h O N) as (_ & _ & _ & Nm & _). split; intros En; rewrite En in Nm; cbn in Nm; injection Nm as Nm; rewrite <- Nm in E; exact E.
Qed.

(** One convolution per stage: convolution, mean of windows, normalisation, twice; then the samples are flattened. *)
Theorem C92_single : forall c k m h x y, mnist_ok c k -> mnist_network c m h -> mc_double c = false -> mnist_features c m x = Ok y ->
  mnist_layer k c 1 (fst (mc_channels c)) (mn_conv1 m) /\ mnist_layer k c (fst (mc_channels c)) (snd (mc_channels c)) (mn_conv2 m) /\
  exists z1 p1 n1 z2 p2 n2,
    any_conv_forward (mn_conv1 m) x = Ok z1 /\ mean_pooled z1 p1 /\ normalizes c p1 n1 /\
    any_conv_forward (mn_conv2 m) n1 = Ok z2 /\ mean_pooled z2 p2 /\ normalizes c p2 n2 /\ flattened n2 y.
Proof.
  intros c k m h x y O N D E. destruct (network_parts c k m h O N) as (C1 & C2 & _).
  split; [now apply in_net_layer|]. split; [now apply in_net_layer|].
  unfold mnist_features in E. rewrite D, (not_standard c k O) in E. cbn [negb] in E. stage E n2. stage En2 z1. stage En2 p1. stage En2 n1. stage En2 z2. stage En2 p2.
  exists z1, p1, n1, z2, p2, n2. eauto 12 using avg_pool_spec, net_normalizes, flat_spec.
Qed.
Print Assumptions C92_single.

(** Two convolutions per stage. *)
Theorem C92_double : forall c k m h x y, mnist_ok c k -> mnist_network c m h -> mc_double c = true -> mnist_features c m x = Ok y ->
  exists conv15 conv25, mn_conv15 m = Some conv15 /\ mn_conv25 m = Some conv25 /\
  mnist_layer k c 1 (fst (mc_channels c)) (mn_conv1 m) /\ mnist_layer k c (fst (mc_channels c)) (fst (mc_channels c)) conv15 /\
  mnist_layer k c (fst (mc_channels c)) (snd (mc_channels c)) (mn_conv2 m) /\ mnist_layer k c (snd (mc_channels c)) (snd (mc_channels c)) conv25 /\
  exists z1 n1 z15 p1 n15 z2 n2 z25 p2 n25,
    any_conv_forward (mn_conv1 m) x = Ok z1 /\ normalizes c z1 n1 /\ any_conv_forward conv15 n1 = Ok z15 /\ mean_pooled z15 p1 /\ normalizes c p1 n15 /\
    any_conv_forward (mn_conv2 m) n15 = Ok z2 /\ normalizes c z2 n2 /\ any_conv_forward conv25 n2 = Ok z25 /\ mean_pooled z25 p2 /\ normalizes c p2 n25 /\
    flattened n25 y.
Proof.
  intros c k m h x y O N D E. destruct (network_parts c k m h O N) as (C1 & C2 & Db & _). destruct (Db D) as (a & b & Ea & Eb & C15 & C25).
  exists a, b. split; [exact Ea|]. split; [exact Eb|]. do 4 (split; [now apply in_net_layer|]).
  unfold mnist_features in E. rewrite D in E. cbn [negb] in E. stage E n25. rewrite Ea, Eb in En25. cbn [attribute] in En25.
  stage En25 z1. stage En25 n1. stage En25 z15. stage En25 p1. stage En25 n15. stage En25 z2. stage En25 n2. stage En25 z25. stage En25 p2.
  exists z1, n1, z15, p1, n15, z2, n2, z25, p2, n25. eauto 20 using avg_pool_spec, net_normalizes, flat_spec.
Qed.
Print Assumptions C92_double.

(** Type "standard": torch convolutions of kernel 5 whatever the configuration, each followed by cutting and the mean of windows; no
    normalisation. *)
Theorem C92_standard_stages : forall c m h x y, mnist_standard_ok c -> mnist_network c m h -> mc_double c = false -> mnist_features c m x = Ok y ->
  exists l1 l2 z1 r1 p1 z2 r2 p2, mn_conv1 m = Standard l1 /\ mn_conv2 m = Standard l2 /\
    shape (sc_weight l1) = [fst (mc_channels c); 1; 5; 5]%nat /\ shape (sc_weight l2) = [snd (mc_channels c); fst (mc_channels c); 5; 5]%nat /\
    standard_conv_forward l1 x = Ok z1 /\ cut z1 r1 /\ mean_pooled r1 p1 /\ standard_conv_forward l2 p1 = Ok z2 /\ cut z2 r2 /\ mean_pooled r2 p2 /\ flattened p2 y.
Proof.
  intros c m h x y O N D E. destruct (standard_parts c m h O N) as ((l1 & l2 & E1 & E2 & S1 & S2) & _).
  unfold mnist_features in E. rewrite D, (ms_type c O), E1, E2 in E. cbn [negb String.eqb Ascii.eqb Bool.eqb any_conv_forward] in E.
  stage E p2. stage Ep2 z1. stage Ep2 p1. stage Ep2 z2.
  exists l1, l2, z1, (relu z1), p1, z2, (relu z2), p2. eauto 20 using avg_pool_spec, relu_spec, flat_spec.
Qed.
Print Assumptions C92_standard_stages.

(** What the torch convolution computes. *)
Theorem C94_standard_conv : forall l i o k x B H W, shape (sc_weight l) = [o; i; k; k] -> (1 <= k)%nat -> (k <= H)%nat -> (k <= W)%nat -> shape x = [B; i; H; W] ->
  exists y, standard_conv_forward l x = Ok y /\ shape y = [B; o; H - k + 1; W - k + 1]%nat /\
    forall b f p q, (b < B)%nat -> (f < o)%nat -> (p < H - k + 1)%nat -> (q < W - k + 1)%nat ->
      at_ y [b; f; p; q] = at_ (sc_bias l) [f] +
        rsum i (fun c => rsum k (fun r => rsum k (fun s => at_ (sc_weight l) [f; c; r; s] * at_ x [b; c; p + r; q + s]%nat))).
Proof.
  intros l i o k x B H W Sw Hk HH HW Hx. assert (Q : forall N, (k <= N)%nat -> conv_size N k 1 0 1 = Some (N - k + 1)%nat).
  { intros N HN. unfold conv_size. cbn [Nat.eqb]. destruct (Nat.leb_spec (1 * (k - 1) + 1) (N + 2 * 0)); [|lia]. rewrite Nat.div_1_r. f_equal. lia. }
  unfold standard_conv_forward, conv2d. rewrite Sw, Hx, Nat.eqb_refl, !Q by assumption. cbn [rbind]. eexists. split; [reflexivity|]. split; [reflexivity|].
  intros b f p q Hb Hf Hp Hq. cbn [at_ nth]. rewrite Rplus_comm. f_equal. apply rsum_ext. intros c Hc. apply rsum_ext. intros r Hr. apply rsum_ext. intros s Hs. f_equal.
  unfold padded. cbn [Nat.leb andb]. destruct (Nat.ltb_spec (p * 1 + r * 1 - 0) H); [|lia]. destruct (Nat.ltb_spec (q * 1 + s * 1 - 0) W); [|lia].
  replace (p * 1 + r * 1 - 0)%nat with (p + r)%nat by lia. now replace (q * 1 + s * 1 - 0)%nat with (q + s)%nat by lia.
Qed.
Print Assumptions C94_standard_conv.

(** ** examples/cifar10.py *)

Definition cifar_classes : list (string * conv_kind) :=
  [("continuous", PolynomialConv); ("piecewise", PiecewiseConv); ("discontinuous", PiecewiseDiscontinuousConv)]%string.
Definition cifar_layer (k : conv_kind) (n segments i o : nat) (l : any_conv) : Prop := exists l', l = HighOrder (Layer2d l') /\
  held_conv2d k (mkConvArgs n segments i o 5 2 false None 1 1 0 1) l'.

(** "continuous" is one polynomial per pixel, "piecewise" the continuous piecewise one; 3 to 6 to 16 channels, kernel 5.  The "standard"
    network has as many channels in between as the piecewise one has basis functions. *)
Theorem C94_layers : forall n segments t m, cifar_network n segments t m -> shape (ci_weight m) = [10; 400]%nat /\ shape (ci_bias m) = [10]%nat /\
  (forall k, In (t, k) cifar_classes -> exists conv1 conv2, ci_convs m = Some (conv1, conv2) /\
     cifar_layer k n segments 3 6 conv1 /\ cifar_layer k n segments 6 16 conv2) /\
  (t = "standard"%string -> exists l1 l2, ci_convs m = Some (Standard l1, Standard l2) /\
     let mid := (6 * ((n - 1) * segments + 1))%nat in
     shape (sc_weight l1) = [mid; 3; 5; 5]%nat /\ shape (sc_bias l1) = [mid] /\ shape (sc_weight l2) = [16; mid; 5; 5]%nat /\ shape (sc_bias l2) = [16]%nat).
Proof.
  intros n s t m (u & draw & m0 & E & Tr & Sw & Sb). unfold new_cifar in E.
  assert (Fc : shape (ci_weight m0) = [10; 400]%nat /\ shape (ci_bias m0) = [10]%nat).
  { match type of E with (c <- ?r ;; _) = _ => destruct r; cbn [rbind] in E; [|discriminate] end. injection E as <-. split; reflexivity. }
  split; [rewrite Sw; apply Fc|]. split; [rewrite Sb; apply Fc|]. split.
  - intros k Ht. assert (Ek : cifar_kind t = Some k) by (destruct Ht as [Q|[Q|[Q|[]]]]; injection Q as <- <-; reflexivity). rewrite Ek in E.
    assert (Cv : forall i o a b l l', cifar_conv k n s i o a b = Ok l -> trained_conv l l' -> cifar_layer k n s i o l').
    { intros i o a b l l' El T. unfold cifar_conv, class2d, rmap in El. destruct (new_conv2d k _ a b) as [l1|] eqn:E1; [|discriminate]. cbn [rbind] in El. injection El as <-.
      destruct l' as [l'|[l'|l']]; cbn in T; try contradiction. destruct T as (w & Sw' & ->). eexists. split; [reflexivity|]. exists a, b, l1, w. auto. }
    destruct (cifar_conv k n s 3 6 _ _) as [a1|] eqn:E1; cbn [rbind] in E; [|discriminate].
    destruct (cifar_conv k n s 6 16 _ _) as [a2|] eqn:E2; cbn [rbind] in E; [|discriminate]. injection E as <-. cbn [ci_convs] in Tr.
    destruct (ci_convs m) as [[b1 b2]|]; [|contradiction]. destruct Tr as (T1 & T2). exists b1, b2. eauto.
  - intros ->. cbn [cifar_kind String.eqb Ascii.eqb Bool.eqb rbind] in E. injection E as <-. cbn [ci_convs] in Tr.
    destruct (ci_convs m) as [[[b1|b1] [b2|b2]]|]; cbn [trained_conv] in Tr; try tauto. destruct Tr as ((T1 & T2) & T3 & T4). exists b1, b2. auto.
Qed.
Print Assumptions C94_layers.

(** Convolution, largest value of every window (for "standard" after cutting), twice; then a linear map of the 16 x 5 x 5 values. *)
Theorem C94_stages : forall n segments t m x B, (1 <= n)%nat -> (1 <= segments)%nat -> In t cifar_types -> cifar_network n segments t m ->
  (1 <= B)%nat -> shape x = [B; 3; 32; 32]%nat ->
  exists conv1 conv2 z1 a1 p1 z2 a2 p2 y, ci_convs m = Some (conv1, conv2) /\
    any_conv_forward conv1 x = Ok z1 /\ (if String.eqb t "standard" then cut z1 a1 else a1 = z1) /\ max_pooled a1 p1 /\
    any_conv_forward conv2 p1 = Ok z2 /\ (if String.eqb t "standard" then cut z2 a2 else a2 = z2) /\ max_pooled a2 p2 /\ shape p2 = [B; 16; 5; 5]%nat /\
    cifar_forward t m x = Ok y /\ forall b o, (b < B)%nat -> (o < 10)%nat -> at_ y [b; o] = at_ (ci_bias m) [o] +
      rsum 16 (fun c => rsum 5 (fun i => rsum 5 (fun j => at_ (ci_weight m) [o; 25 * c + 5 * i + j]%nat * at_ p2 [b; c; i; j]))).
Proof.
  intros n s t m x B Hn Hs Ht N HB Hx. destruct (cifar_parts n s t m Ht Hn Hs N) as (Sw & mid & c1 & c2 & Ec & P).
  destruct (sw_total _ _ _ (cifar_samplewise n s t m Ht Hn Hs N) x B HB Hx) as (y & Ey & Sy).
  assert (Pre : exists p2, (x <- any_conv_forward c1 x ;; cifar_tail t c2 x) = Ok p2 /\ shape p2 = [B; 16; 5; 5]%nat).
  { refine (sw_total _ _ _ (sw_comp _ _ _ [mid; 28; 28]%nat _ _ _) x B HB Hx); [apply (P 32 32)%nat; lia|]. apply (cifar_tail_ok t c2 mid 32 32); try lia. intros H W. apply P. }
  destruct Pre as (p2 & Ep & Sp). pose proof Ep as Et. stage Et z1. unfold cifar_tail in Et. stage Et p1. stage Et z2.
  set (act := fun z => if String.eqb t "standard" then relu z else z) in *.
  assert (A : forall z, if String.eqb t "standard" then cut z (act z) else act z = z).
  { intros z. unfold act. destruct (String.eqb t "standard"); [apply relu_spec|reflexivity]. }
  exists c1, c2, z1, (act z1), p1, z2, (act z2), p2, y. split; [exact Ec|]. split; [exact Ez1|]. split; [apply A|]. split; [now apply max_pool_spec|].
  split; [exact Ez2|]. split; [apply A|]. split; [now apply max_pool_spec|]. split; [exact Sp|]. split; [exact Ey|].
  intros b o Hb Ho. rewrite (cifar_chain t m c1 c2 x Ec), Ez1, Ep in Ey. cbn [rbind] in Ey.
  destruct (view_infer_ok p2 [] [16 * 5 * 5]%nat B) as (v & Ev & Sv & V); [cbn; lia|unfold numel; rewrite Sp; cbn [prodn]; lia|].
  rewrite Ev in Ey. cbn [rbind] in Ey. unfold Linear_forward in Ey. rewrite Sw, Sv in Ey. cbn [rev app] in Ey. change (16 * 5 * 5)%nat with 400%nat in *.
  rewrite Nat.eqb_refl in Ey. apply Ok_inj in Ey. subst y. cbn [at_ removelast last app]. rewrite Rplus_comm. f_equal.
  change 400%nat with (16 * 25)%nat. rewrite rsum_mul. apply rsum_ext. intros c Hc. change 25%nat with (5 * 5)%nat at 1. rewrite rsum_mul.
  apply rsum_ext. intros i Hi. apply rsum_ext. intros j Hj. rewrite Rmult_comm. f_equal; [f_equal; f_equal; f_equal; lia|].
  apply V; rewrite Sp; cbn [valid app ravel prodn]; [tauto|lia].
Qed.
Print Assumptions C94_stages.

(** Networks of both examples for which these theorems hold; the middle channels of a "standard" network with n = 3 and two segments. *)
Example C94_stages_case : exists m, cifar_network 3 2 "piecewise" m /\ In ("piecewise"%string, PiecewiseConv) cifar_classes /\
  (exists y, cifar_forward "piecewise" m (mkT [2; 3; 32; 32]%nat (fun ix => INR (nth 3 ix 0%nat))) = Ok y /\ shape y = [2; 10]%nat) /\
  (6 * ((3 - 1) * 2 + 1) = 30)%nat.
Proof.
  destruct (C94_construction 3 2 "piecewise" (fun _ _ => 1) (fun _ _ => 1)) as (m & _ & N); try lia. exists m. split; [exact N|]. split; [cbn; auto|]. split; [|reflexivity].
  apply (C94_shape 3 2 "piecewise" m _ 2); auto; try lia. cbn; auto.
Qed.
(** Of the window 1, -2, 3, 0 the mean is 1/2 and the largest value 3. *)
Example C92_pool_case : let z := mkT [1; 1; 2; 3]%nat (fun ix => match ix with [_; _; O; O] => 1 | [_; _; O; _] => -2 | [_; _; _; O] => 3 | _ => 0 end) in
  (exists p, avg_pool2d z = Ok p /\ mean_pooled z p /\ at_ p [0; 0; 0; 0]%nat = 1/2) /\
  (exists p, max_pool2d z = Ok p /\ max_pooled z p /\ at_ p [0; 0; 0; 0]%nat = 3).
Proof.
  intros z. split; eexists; (split; [reflexivity|]).
  - split; [now apply avg_pool_spec|]. cbn. lra.
  - split; [now apply max_pool_spec|]. cbn. unfold Rmax. repeat destruct Rle_dec; lra.
Qed.
(** Hypotheses of C92_single and C92_double are met by every network C92_construction builds. *)
Example C92_stages_case : forall double, let c := mkMnistCfg "polynomial2d" 3 2 (2, 4)%nat 3 double "max_center" "auto" in
  mnist_ok c PolynomialConv /\ exists m h y, mnist_network c m h /\ mnist_features c m (mkT [1; 1; 28; 28]%nat (fun ix => INR (nth 3 ix 0%nat))) = Ok y.
Proof.
  intros double c. assert (O : mnist_ok c PolynomialConv) by (constructor; cbn; auto 10; lia). split; [exact O|].
  destruct (C92_construction (fun _ _ => 1) c PolynomialConv (fun _ _ => 1) (fun _ _ => 1) [] O) as (m & h & _ & N); [intros i Hi; cbn in Hi; lia|].
  destruct (C92_features c PolynomialConv m h (mkT [1; 1; 28; 28]%nat (fun ix => INR (nth 3 ix 0%nat))) 1 O N) as (y & E & _); auto.
  - unfold kernel_works. destruct double; cbn; auto.
  - exists m, h, y. auto.
Qed.

(** ** examples/invariant_mnist.py *)

(** One input layer, [hidden_layers] hidden ones and one output layer, for every order. *)
Theorem C91_layers : forall g c n h, usable c -> refinable_type (ic_layer_type c) -> (1 <= n)%nat -> wf_heap h ->
  exists net e, inv_net g c n h = Ok (net, h ++ e) /\ length (network_layers (h ++ e) net) = (ic_hidden_layers c + 2)%nat /\
    maps_width (h ++ e) net (ic_in_width c) (ic_out_width c).
Proof.
  intros g c n h U T Hn W. destruct (usable_norm c U) as (nm & En & _ & Ow).
  destruct (C43_mlp_widths g (inv_args c nm n) h W (inv_flat c nm n h U T Hn Ow)) as (net & e & E & L & M).
  exists net, e. split; [unfold inv_net, mthen, mlift; rewrite En; exact E|]. split; assumption.
Qed.
Print Assumptions C91_layers.

(** ** examples/xor.py *)

(** The target is -1/2 where both coordinates have the same sign and 1/2 everywhere else, the axes included. *)
Theorem C93_target : forall x y, xor_target x y = - (1/2) /\ (0 < x /\ 0 < y \/ x < 0 /\ y < 0) \/
  xor_target x y = 1/2 /\ ~ (0 < x /\ 0 < y \/ x < 0 /\ y < 0).
Proof.
  intros x y. unfold xor_target. destruct (Rlt_dec 0 (x * y)) as [C|C]; [left|right]; (split; [reflexivity|]).
  - destruct (Rtotal_order x 0) as [X|[X|X]]; [right|subst; lra|left]; split; auto; nra.
  - intros [[X Y]|[X Y]]; apply C; [now apply Rmult_lt_0_compat|nra].
Qed.
Print Assumptions C93_target.
Example C93_target_case : xor_target (1/2) (-1) = 1/2 /\ xor_target (-1) (-1) = - (1/2) /\ xor_target 0 3 = 1/2.
Proof. unfold xor_target. repeat split; destruct Rlt_dec; lra. Qed.

(** ** Initial weights of the other convolutions *)

(** One-dimensional and transposed convolutions and the two-dimensional Fourier ones start with weights drawn uniformly from an interval
    around 0, [u] being the draws from [0, 1); the basis functions count as channels and the kernel counts as square, in one dimension
    too, and [rescale_output] does not matter.  Their outputs are therefore no constants, unlike C37_fresh_conv_is_constant. *)
Theorem C37_other_weights : forall k a u draw op l,
  new_conv1d k a u = Ok l \/ k = FourierConv /\ new_conv2d k a u draw = Ok l \/ k = PiecewiseConv /\ l = ct_conv (new_conv_transpose2d a op u) ->
  let N := INR (conv_nb k (a_n a) (a_segments a) * a_in a * a_kernel a * a_kernel a) in
  (forall ix, at_ (cv_w l) ix = (2 * u ix - 1) * (a_weight_magnitude a / N)) /\
  (good_args a -> 0 <= a_weight_magnitude a -> forall ix, 0 <= u ix <= 1 -> Rabs (at_ (cv_w l) ix) <= a_weight_magnitude a / N).
Proof.
  intros k a u draw op l H N.
  assert (V : forall ix, at_ (cv_w l) ix = (2 * u ix - 1) * (a_weight_magnitude a / N)).
  { intros ix. destruct H as [E|[[-> E]|[-> ->]]].
    - unfold new_conv1d in E. destruct k; try discriminate; apply Ok_inj in E; subst l; cbn [cv_w]; unfold conv_wrapper_init, uniform; cbn [at_]; fold N; unfold Rdiv; ring.
    - unfold new_conv2d in E. cbn [rbind] in E. apply Ok_inj in E; subst l. cbn [cv_w]. unfold conv_wrapper_init, uniform; cbn [at_]. fold N. unfold Rdiv. ring.
    - cbn [new_conv_transpose2d ct_conv cv_w]. unfold conv_wrapper_init, uniform; cbn [at_]. fold N. unfold Rdiv. ring. }
  split; [exact V|]. intros (G1 & G2 & G3 & G4 & G5 & _) Hm ix Hu. rewrite V. rewrite Rabs_mult.
  assert (0 < N). { apply lt_0_INR. assert (1 <= conv_nb k (a_n a) (a_segments a))%nat by (destruct k; cbn; nia). nia. }
  assert (Q : 0 <= a_weight_magnitude a / N) by (apply Rmult_le_pos; [exact Hm|]; left; now apply Rinv_0_lt_compat).
  rewrite (Rabs_right (a_weight_magnitude a / N)) by lra. assert (Rabs (2 * u ix - 1) <= 1) by (apply Rabs_le; lra). nra.
Qed.
Print Assumptions C37_other_weights.
Example C37_other_weights_case : let a := mkConvArgs 3 2 4 5 3 2 false None 9 1 0 1 in exists l,
  new_conv1d PiecewiseConv a (fun _ => 3/4) = Ok l /\ good_args a /\ (conv_nb PiecewiseConv 3 2 * 4 * 3 * 3 = 180)%nat.
Proof. intros a. eexists. split; [reflexivity|]. split; [|reflexivity]. unfold good_args. cbn. lia. Qed.

(** ** torch.nn.BatchNorm2d *)

Definition over_channel (x : tensor R) (B H W c : nat) (f : R -> R) : R :=
  rsum B (fun b => rsum H (fun i => rsum W (fun j => f (at_ x [b; c; i; j])))).

Lemma over_lin x B H W c a d : over_channel x B H W c (fun v => a * v + d) = a * over_channel x B H W c (fun v => v) + d * INR (B * H * W).
Proof.
  unfold over_channel. assert (Q : forall n f a d, rsum n (fun i => a * f i + d) = a * rsum n f + d * INR n).
  { intros n f a' d'. rewrite rsum_plus, rsum_scal, rsum_const. ring. }
  rewrite (rsum_ext B _ (fun b => a * rsum H (fun i => rsum W (fun j => at_ x [b; c; i; j])) + d * INR (H * W))).
  - rewrite Q, !mult_INR. ring.
  - intros b _. rewrite (rsum_ext H _ (fun i => a * rsum W (fun j => at_ x [b; c; i; j]) + d * INR W)); [|intros; apply Q]. rewrite Q, mult_INR. ring.
Qed.
Lemma over_scal x B H W c a f : over_channel x B H W c (fun v => a * f v) = a * over_channel x B H W c f.
Proof. unfold over_channel. rewrite <- rsum_scal. apply rsum_ext. intros. rewrite <- rsum_scal. apply rsum_ext. intros. now rewrite <- rsum_scal. Qed.
Lemma over_ext x y B H W c f g : (forall b i j, (b < B)%nat -> (i < H)%nat -> (j < W)%nat -> f (at_ x [b; c; i; j]) = g (at_ y [b; c; i; j])) ->
  over_channel x B H W c f = over_channel y B H W c g.
Proof. intros E. unfold over_channel. apply rsum_ext. intros. apply rsum_ext. intros. apply rsum_ext. intros. auto. Qed.

(** In training mode the values of a channel, over batch, rows and columns, get the mean [bn_bias] and the variance
    [bn_weight]^2 v / (v + 1e-5), where v is their variance before; they are an increasing function of what they were if [bn_weight] is
    positive.  In evaluation mode the running statistics take the place of those of the batch. *)
Theorem C98_batch_norm : forall s C x y B H W, shape x = [B; C; H; W] -> (1 <= B * H * W)%nat ->
  (BatchNorm2d true s C x = Ok y -> forall c,
     let N := INR (B * H * W) in
     let mean := over_channel x B H W c (fun v => v) / N in
     let var := over_channel x B H W c (fun v => (v - mean) ^ 2) / N in
     0 <= var /\ over_channel y B H W c (fun v => v) / N = bn_bias s c /\
     over_channel y B H W c (fun v => (v - bn_bias s c) ^ 2) / N = bn_weight s c ^ 2 * (var / (var + 1 / 100000)) /\
     forall b i j, (at_ y [b; c; i; j] - bn_bias s c) * sqrt (var + 1 / 100000) = bn_weight s c * (at_ x [b; c; i; j] - mean)) /\
  (BatchNorm2d false s C x = Ok y -> forall b c i j, 0 <= bn_var s c ->
     (at_ y [b; c; i; j] - bn_bias s c) * sqrt (bn_var s c + 1 / 100000) = bn_weight s c * (at_ x [b; c; i; j] - bn_mean s c)).
Proof.
  intros s C x y B H W Hx Hp. split; intros E; unfold BatchNorm2d in E; rewrite Hx, Nat.eqb_refl in E; cbn [negb andb] in E.
  - destruct (Nat.eqb (B * H * W) 1); [discriminate|]. intros c N mean var. apply Ok_inj in E; subst y.
    assert (HN : 0 < N) by (apply lt_0_INR; lia).
    assert (Hv : 0 <= var).
    { apply Rmult_le_pos; [|left; now apply Rinv_0_lt_compat]. unfold over_channel. do 3 (apply rsum_nonneg; intros ? _). apply pow2_ge_0. }
    assert (Hs : 0 < sqrt (var + 1 / 100000)) by (apply sqrt_lt_R0; lra).
    set (q := sqrt (var + 1 / 100000)) in *.
    assert (Eq : forall b i j, at_ (mkT [B; C; H; W] (fun ix => let c := nth 1 ix 0%nat in
       (at_ x ix - channel_mean x B H W c (fun v => v)) / sqrt (channel_mean x B H W c (fun v => (v - channel_mean x B H W c (fun v => v)) ^ 2) + 1 / 100000) * bn_weight s c + bn_bias s c)) [b; c; i; j] =
       bn_weight s c / q * at_ x [b; c; i; j] + (bn_bias s c - bn_weight s c / q * mean)).
    { intros b i j. cbn [at_ nth]. change (channel_mean x B H W c (fun v => v)) with mean.
      change (channel_mean x B H W c (fun v => (v - mean) ^ 2)) with var. fold q. field. lra. }
    assert (Em : over_channel x B H W c (fun v => v) = mean * N) by (unfold mean; field; lra).
    assert (Ev : over_channel x B H W c (fun v => (v - mean) ^ 2) = var * N) by (unfold var; field; lra).
    assert (Q2 : q ^ 2 = var + 1 / 100000) by (unfold q; rewrite pow2_sqrt; lra).
    split; [exact Hv|]. split; [|split].
    + rewrite (over_ext _ x B H W c _ (fun v => bn_weight s c / q * v + (bn_bias s c - bn_weight s c / q * mean))) by (intros b i j _ _ _; apply Eq).
      rewrite over_lin, Em. fold N. field. lra.
    + rewrite (over_ext _ x B H W c _ (fun v => (bn_weight s c / q) ^ 2 * (v - mean) ^ 2)).
      * rewrite over_scal, Ev. rewrite <- Q2. field. lra.
      * intros b i j _ _ _. rewrite Eq. ring.
    + intros b i j. rewrite Eq. field. lra.
  - intros b c i j Hv. apply Ok_inj in E; subst y. cbn [at_ nth]. field. apply Rgt_not_eq, sqrt_lt_R0. lra.
Qed.
Print Assumptions C98_batch_norm.

(** When it accepts a tensor: rank 4, its number of channels, and in training mode more than one value per channel. *)
Theorem C98_batch_norm_accepts : forall training s C x,
  (exists y, BatchNorm2d training s C x = Ok y) <->
  (exists B H W, shape x = [B; C; H; W] /\ (training = true -> (B * H * W <> 1)%nat)).
Proof.
  intros training s C x. unfold BatchNorm2d. split.
  - intros [y E]. destruct (shape x) as [|B [|C' [|H [|W [|]]]]]; try discriminate. exists B, H, W.
    destruct (Nat.eqb_spec C' C) as [->|]; cbn [negb] in E; [|discriminate]. split; [reflexivity|]. intros -> E1. rewrite E1 in E. discriminate.
  - intros (B & H & W & -> & N). rewrite Nat.eqb_refl. cbn [negb]. destruct training; cbn [andb]; [|eauto].
    destruct (Nat.eqb_spec (B * H * W) 1) as [E|]; [now elim (N eq_refl)|eauto].
Qed.
Print Assumptions C98_batch_norm_accepts.
(** A batch of two images of one pixel. *)
Example C98_batch_norm_case : let x := mkT [2; 1; 1; 1]%nat (fun ix => INR (hd 0%nat ix)) in
  (exists y, BatchNorm2d true bn_fresh 1 x = Ok y) /\ over_channel x 2 1 1 0 (fun v => v) / INR 2 = 1/2 /\
  over_channel x 2 1 1 0 (fun v => (v - 1/2) ^ 2) / INR 2 = 1/4.
Proof. intros x. split; [eexists; reflexivity|]. unfold over_channel. cbn. split; lra. Qed.
