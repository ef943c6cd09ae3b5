(** * The image classifiers of examples/mnist.py (C92) and examples/cifar10.py (C94). *)
From Coq Require Import String Reals Lra ZArith List Lia Bool Arith.
From Verif Require Import Spec Tensor Utils Normalization LagrangePolynomial Basis PolynomialLayers Refine ProductLayer Expand Convolution LagrangeND
  Layers Networks ConvNetworks LayerNorm Examples Observe ObserveConv ObserveNet ObserveConvNet SumFacts TensorFacts NormFacts LayerFacts LayerProofs ConvFacts HeapFacts NetFacts NetCopy
  AttentionFacts ConvNetFacts Prop_Norm Prop_Conv Prop_Factory Prop_MLP NetTypes Prop_Rows.
Import ListNotations.
Local Open Scope R_scope.

(** ** Functions of one sample *)

(** [f] maps batches of samples of shape [s] to batches of samples of shape [s'], each a function of its own sample; or always fails. *)
Definition samplewise (f : tensor R -> res (tensor R)) (s s' : list nat) : Prop :=
  forall x x' B B' b b', shape x = B :: s -> shape x' = B' :: s -> (b < B)%nat -> (b' < B')%nat -> same_sample x x' b b' s ->
    exists y y', f x = Ok y /\ f x' = Ok y' /\ shape y = B :: s' /\ shape y' = B' :: s' /\ same_sample y y' b b' s'.
Definition fails (f : tensor R -> res (tensor R)) (s : list nat) : Prop :=
  forall x B, (1 <= B)%nat -> shape x = B :: s -> f x = Err RuntimeError.

Lemma same_refl x b s : same_sample x x b b s.
Proof. intros ix _. reflexivity. Qed.
Lemma sw_total f s s' : samplewise f s s' -> forall x B, (1 <= B)%nat -> shape x = B :: s -> exists y, f x = Ok y /\ shape y = B :: s'.
Proof. intros H x B HB Hx. destruct (H x x B B 0%nat 0%nat Hx Hx HB HB (same_refl _ _ _)) as (y & _ & E & _ & S & _). eauto. Qed.
Lemma sw_comp f g s s' s'' : samplewise f s s' -> samplewise g s' s'' -> samplewise (fun x => y <- f x ;; g y) s s''.
Proof.
  intros F G x x' B B' b b' Hx Hx' Hb Hb' Eq. destruct (F x x' B B' b b' Hx Hx' Hb Hb' Eq) as (y & y' & E & E' & S & S' & Q).
  destruct (G y y' B B' b b' S S' Hb Hb' Q) as (z & z' & Z). exists z, z'. now rewrite E, E'.
Qed.
Lemma sw_ext f g s s' : (forall x, g x = f x) -> samplewise f s s' -> samplewise g s s'.
Proof. intros E F x x' B B' b b' Hx Hx' Hb Hb' Eq. rewrite !E. eauto. Qed.
(** [f] does not depend on the values of its input at all. *)
Definition blind (f : tensor R -> res (tensor R)) (s s' : list nat) : Prop :=
  forall x x' B B' b b', shape x = B :: s -> shape x' = B' :: s -> (b < B)%nat -> (b' < B')%nat ->
    exists y y', f x = Ok y /\ f x' = Ok y' /\ shape y = B :: s' /\ shape y' = B' :: s' /\ same_sample y y' b b' s'.
Lemma blind_comp f g s s' s'' : blind f s s' -> samplewise g s' s'' -> blind (fun x => y <- f x ;; g y) s s''.
Proof.
  intros F G x x' B B' b b' Hx Hx' Hb Hb'. destruct (F x x' B B' b b' Hx Hx' Hb Hb') as (y & y' & E & E' & S & S' & Q).
  destruct (G y y' B B' b b' S S' Hb Hb' Q) as (z & z' & Z). exists z, z'. now rewrite E, E'.
Qed.
Lemma blind_ext f g s s' : (forall x, g x = f x) -> blind f s s' -> blind g s s'.
Proof. intros E F x x' B B' b b' Hx Hx' Hb Hb'. rewrite !E. eauto. Qed.
(** It is enough that batches of the same size give the same result. *)
Lemma blind_teq f s s' : samplewise f s s' -> (forall x x' B y y', shape x = B :: s -> shape x' = B :: s -> f x = Ok y -> f x' = Ok y' -> teq y y') -> blind f s s'.
Proof.
  intros Sw Te x x' B B' b b' Hx Hx' Hb Hb'.
  destruct (Sw (mkT (B :: s) (fun _ => 0)) (mkT (B' :: s) (fun _ => 0)) B B' b b' eq_refl eq_refl Hb Hb') as (z & z' & Ez & Ez' & Sz & Sz' & Q); [intros ix _; reflexivity|].
  destruct (sw_total _ _ _ Sw x B ltac:(lia) Hx) as (y & Ey & Sy). destruct (sw_total _ _ _ Sw x' B' ltac:(lia) Hx') as (y' & Ey' & Sy').
  destruct (Te x (mkT (B :: s) (fun _ => 0)) B y z Hx eq_refl Ey Ez) as (_ & T). destruct (Te x' (mkT (B' :: s) (fun _ => 0)) B' y' z' Hx' eq_refl Ey' Ez') as (_ & T').
  exists y, y'. repeat (split; [assumption|]). intros ix Hix. rewrite T by (rewrite Sy; split; assumption). rewrite T' by (rewrite Sy'; split; assumption). now apply Q.
Qed.
Lemma fail_first f g s : fails f s -> fails (fun x => y <- f x ;; g y) s.
Proof. intros F x B HB Hx. now rewrite (F x B). Qed.
Lemma fail_second f g s s' : samplewise f s s' -> fails g s' -> fails (fun x => y <- f x ;; g y) s.
Proof. intros F G x B HB Hx. destruct (sw_total f s s' F x B HB Hx) as (y & E & S). rewrite E. cbn. eauto. Qed.

(** ** The building blocks *)

Lemma sw_conv t k a u draw l l' H W : In (t, (2%nat, k)) conv_class_names -> good_args a -> high_order_convolution_layers t a u draw = Ok l -> trained_layer l l' ->
  fits a H -> fits a W -> samplewise (conv_layer_forward l') [a_in a; H; W] [a_out a; positions a H; positions a W].
Proof.
  intros T G E Tr FH FW x x' B B' b b' Hx Hx' Hb Hb' Eq.
  assert (FF : forall w, In w [H; W] -> fits a w) by (intros w [<-|[<-|[]]]; assumption).
  destruct (layer_shape t 2 k a u draw l l' x B [H; W] T G E Tr Hx eq_refl FF) as (y & Ey & Sy).
  destruct (layer_shape t 2 k a u draw l l' x' B' [H; W] T G E Tr Hx' eq_refl FF) as (y' & Ey' & Sy').
  exists y, y'. repeat (split; [assumption|]). exact (layer_samples t 2 k a u draw l l' x x' B B' [H; W] b b' y y' T G E Tr Hx Hx' eq_refl FF Hb Hb' Eq Ey Ey').
Qed.
Lemma fail_conv t k a u draw l l' H W : In (t, (2%nat, k)) conv_class_names -> good_args a -> high_order_convolution_layers t a u draw = Ok l -> trained_layer l l' ->
  ~ (fits a H /\ fits a W) -> fails (conv_layer_forward l') [a_in a; H; W].
Proof.
  intros T G E Tr N x B HB Hx. destruct (factory_held t 2 k a u draw l l' T E Tr) as [(_ & c & -> & Hc)|(D & _)]; [|discriminate].
  destruct (C38_conv_size k a c x B H W G Hc Hx) as (_ & Q). now apply Q.
Qed.

Lemma sw_standard l I O k H W : shape (sc_weight l) = [O; I; k; k] -> (1 <= k <= H)%nat -> (k <= W)%nat ->
  samplewise (standard_conv_forward l) [I; H; W] [O; H - k + 1; W - k + 1]%nat.
Proof.
  intros Sw Hk Wk. assert (Q : forall N, (k <= N)%nat -> conv_size N k 1 0 1 = Some (N - k + 1)%nat).
  { intros N HN. unfold conv_size. cbn [Nat.eqb]. destruct (Nat.leb_spec (1 * (k - 1) + 1) (N + 2 * 0)); [|lia]. rewrite Nat.div_1_r. f_equal. lia. }
  intros x x' B B' b b' Hx Hx' Hb Hb' Eq. unfold standard_conv_forward, conv2d. rewrite Sw, Hx, Hx', Nat.eqb_refl, !Q by lia. cbn [rbind].
  eexists _, _. do 4 (split; [reflexivity|]). intros ix Hix. destruct ix as [|o [|i [|j [|? ?]]]]; cbn -[Nat.sub] in Hix; try tauto. cbn [at_ nth].
  f_equal. apply rsum_ext. intros c Hc. apply rsum_ext. intros p Hp. apply rsum_ext. intros q Hq. f_equal.
  apply padded_ext. intros y Hy. apply padded_ext. intros z Hz. apply Eq. cbn. auto.
Qed.
Lemma fail_standard l I O k H W : shape (sc_weight l) = [O; I; k; k] -> (H < k \/ W < k)%nat -> fails (standard_conv_forward l) [I; H; W].
Proof.
  intros Sw Hk x B HB Hx. unfold standard_conv_forward, conv2d. rewrite Sw, Hx, Nat.eqb_refl.
  assert (Q : forall N, (N < k)%nat -> conv_size N k 1 0 1 = None).
  { intros N HN. unfold conv_size. cbn [Nat.eqb]. destruct (Nat.leb_spec (1 * (k - 1) + 1) (N + 2 * 0)); [lia|]. reflexivity. }
  destruct Hk as [Hk|Hk]; rewrite (Q _ Hk); [reflexivity|]. destruct conv_size; reflexivity.
Qed.

Lemma sw_pool f C H W : (2 <= H)%nat -> (2 <= W)%nat -> samplewise (pool2d f) [C; H; W] [C; H / 2; W / 2]%nat.
Proof.
  intros HH HW x x' B B' b b' Hx Hx' Hb Hb' Eq. unfold pool2d. rewrite Hx, Hx'. destruct (Nat.ltb_spec H 2); [lia|]. destruct (Nat.ltb_spec W 2); [lia|]. cbn [orb].
  eexists _, _. do 4 (split; [reflexivity|]). intros ix Hix. destruct ix as [|c [|i [|j [|? ?]]]]; cbn -[Nat.div] in Hix; try tauto. cbn [at_].
  destruct Hix as (Hc & Hi & Hj & _). pose proof (Nat.div_mod H 2 ltac:(lia)). pose proof (Nat.div_mod W 2 ltac:(lia)).
  rewrite (Eq [c; 2 * i; 2 * j]%nat), (Eq [c; 2 * i; 2 * j + 1]%nat), (Eq [c; 2 * i + 1; 2 * j]%nat), (Eq [c; 2 * i + 1; 2 * j + 1]%nat); [reflexivity|..];
    cbn -[Nat.mul]; repeat split; auto; lia.
Qed.
Lemma fail_pool f C H W : (H < 2 \/ W < 2)%nat -> fails (pool2d f) [C; H; W].
Proof. intros HW x B _ Hx. unfold pool2d. rewrite Hx. destruct (Nat.ltb_spec H 2), (Nat.ltb_spec W 2); cbn; auto; lia. Qed.

Lemma sw_relu s : samplewise (fun x => Ok (relu x)) s s.
Proof.
  intros x x' B B' b b' Hx Hx' Hb Hb' Eq. eexists _, _. do 2 (split; [reflexivity|]). split; [exact Hx|]. split; [exact Hx'|].
  intros ix Hix. unfold relu, tmap. cbn [at_]. now rewrite Eq.
Qed.

Lemma largest_same (s : list nat) (x x' : tensor R) B B' b b' (g : R -> R) M M' : shape x = B :: s -> shape x' = B' :: s -> (b < B)%nat -> (b' < B')%nat -> same_sample x x' b b' s ->
  is_largest (in_sample (shape x) b) (fun jx => g (at_ x jx)) M -> is_largest (in_sample (shape x') b') (fun jx => g (at_ x' jx)) M' -> M' = M.
Proof.
  intros Hx Hx' Hb Hb' Eq ((a & (Va & Ba) & Ea) & L) ((a' & (Va' & Ba') & Ea') & L').
  rewrite Hx in Va, L. rewrite Hx' in Va', L'. destruct a as [|c a]; [contradiction|]. destruct a' as [|c' a']; [contradiction|]. cbn in Ba, Ba'. subst c c'.
  cbn in Va, Va'. destruct Va as (_ & Va), Va' as (_ & Va').
  assert (M <= M'). { rewrite <- Ea, (Eq a Va). apply L'. split; [cbn; auto|reflexivity]. }
  assert (M' <= M). { rewrite <- Ea', <- (Eq a' Va'). apply L. split; [cbn; auto|reflexivity]. }
  lra.
Qed.
Lemma smallest_same (s : list nat) (x x' : tensor R) B B' b b' M M' : shape x = B :: s -> shape x' = B' :: s -> (b < B)%nat -> (b' < B')%nat -> same_sample x x' b b' s ->
  is_smallest (in_sample (shape x) b) (at_ x) M -> is_smallest (in_sample (shape x') b') (at_ x') M' -> M' = M.
Proof.
  intros Hx Hx' Hb Hb' Eq ((a & (Va & Ba) & Ea) & L) ((a' & (Va' & Ba') & Ea') & L').
  rewrite Hx in Va, L. rewrite Hx' in Va', L'. destruct a as [|c a]; [contradiction|]. destruct a' as [|c' a']; [contradiction|]. cbn in Ba, Ba'. subst c c'.
  cbn in Va, Va'. destruct Va as (_ & Va), Va' as (_ & Va').
  assert (M' <= M). { rewrite <- Ea, (Eq a Va). apply L'. split; [cbn; auto|reflexivity]. }
  assert (M <= M'). { rewrite <- Ea', <- (Eq a' Va'). apply L. split; [cbn; auto|reflexivity]. }
  lra.
Qed.

Lemma sw_norm name f s : mnist_normalization name = Ok f -> prodn s <> 0%nat -> samplewise f s s.
Proof.
  intros E P x x' B B' b b' Hx Hx' Hb Hb' Eq. unfold mnist_normalization in E.
  destruct (String.eqb name "max_abs"); [|destruct (String.eqb name "max_center"); [|discriminate]]; injection E as <-.
  - destruct (max_abs_nd_spec x B s Hx ltac:(lia) P (1 / 1000000)) as (y & Ey & Sy & V), (max_abs_nd_spec x' B' s Hx' ltac:(lia) P (1 / 1000000)) as (y' & Ey' & Sy' & V').
    exists y, y'. do 2 (split; [assumption|]). split; [congruence|]. split; [congruence|]. intros ix Hix.
    destruct (V b ix) as (M & HM & ->); [rewrite Hx; cbn; auto|]. destruct (V' b' ix) as (M' & HM' & ->); [rewrite Hx'; cbn; auto|].
    rewrite (largest_same s x x' B B' b b' Rabs M M') by assumption. now rewrite (Eq ix Hix).
  - destruct (max_center_nd_spec x B s Hx ltac:(lia) P (1 / 1000000)) as (y & Ey & Sy & V), (max_center_nd_spec x' B' s Hx' ltac:(lia) P (1 / 1000000)) as (y' & Ey' & Sy' & V').
    exists y, y'. do 2 (split; [assumption|]). split; [congruence|]. split; [congruence|]. intros ix Hix.
    destruct (V b ix) as (M & m & HM & Hm & ->); [rewrite Hx; cbn; auto|]. destruct (V' b' ix) as (M' & m' & HM' & Hm' & ->); [rewrite Hx'; cbn; auto|].
    rewrite (largest_same s x x' B B' b b' (fun v => v) M M') by assumption. rewrite (smallest_same s x x' B B' b b' m m') by assumption. now rewrite (Eq ix Hix).
Qed.
Lemma norm_range name f x y : mnist_normalization name = Ok f -> shape x <> [] -> numel x <> 0%nat -> f x = Ok y -> shape y = shape x /\ forall ix, valid (shape x) ix -> -1 < at_ y ix < 1.
Proof.
  intros E N P Ey. unfold mnist_normalization in E.
  destruct (String.eqb name "max_abs"); [|destruct (String.eqb name "max_center"); [|discriminate]]; injection E as <-.
  - destruct (C24_max_abs_nd x (1 / 1000000) N P) as (y' & Ey' & S & Q). rewrite Ey in Ey'. injection Ey' as <-. split; [exact S|]. intros ix Hix.
    destruct (Q ix Hix) as (M & _ & _ & Z & _). apply Z. lra.
  - destruct (C25_max_center_nd x (1 / 1000000) N P) as (y' & Ey' & S & Q). rewrite Ey in Ey'. injection Ey' as <-. split; [exact S|]. intros ix Hix.
    destruct (Q ix Hix) as (M & m & _ & _ & _ & Z). apply Z. lra.
Qed.

Lemma sw_flatten s : samplewise (fun x => view_infer [nth 0 (shape x) 0%nat] [] x) s [prodn s].
Proof.
  intros x x' B B' b b' Hx Hx' Hb Hb' Eq. destruct (nd_view x B s Hx ltac:(lia)) as (y & Ey & Sy & V), (nd_view x' B' s Hx' ltac:(lia)) as (y' & Ey' & Sy' & V').
  exists y, y'. repeat (split; [assumption|]). intros ix Hix. destruct ix as [|r [|? ?]]; cbn in Hix; try tauto. rewrite V, V' by tauto. apply Eq. now apply unravel_valid.
Qed.
Lemma sw_rowwise W W' f : rowwise W W' f -> samplewise f [W] [W'].
Proof.
  intros (F & X & H) x x' B B' b b' Hx Hx' Hb Hb' Eq. destruct (H x B Hx) as (y & Ey & Sy & V), (H x' B' Hx') as (y' & Ey' & Sy' & V').
  exists y, y'. repeat (split; [assumption|]). intros ix Hix. destruct ix as [|r [|? ?]]; cbn in Hix; try tauto. rewrite V, V' by tauto. apply X; [|tauto].
  intros i Hi. unfold row. apply Eq. cbn. auto.
Qed.

(** ** examples/mnist.py *)

(** Configurations with a high order convolution type; the output layer is "linear", "auto" or a flat layer type. *)
Record mnist_ok (c : mnist_cfg) (k : conv_kind) : Prop := mkMnistOk {
  mo_type : In (mc_layer_type c, (2%nat, k)) conv_class_names;
  mo_n : (1 <= mc_n c)%nat;
  mo_segments : (1 <= mc_segments c)%nat;
  mo_in : (1 <= fst (mc_channels c))%nat;
  mo_out : (1 <= snd (mc_channels c))%nat;
  mo_kernel : (1 <= mc_kernel_size c)%nat;
  mo_norm : In (mc_normalization c) ["max_abs"; "max_center"]%string;
  mo_output : mc_output_layer_type c = "linear"%string \/ mc_output_layer_type c = "auto"%string \/
              flat_layer (mc_output_layer_type c) (Int (mc_n c)) (Some (Int (mc_segments c))) }.

(** Training, loading or assigning weights. *)
Definition trained_conv (l l' : any_conv) : Prop :=
  match l, l' with
  | Standard l, Standard l' => shape (sc_weight l') = shape (sc_weight l) /\ shape (sc_bias l') = shape (sc_bias l)
  | HighOrder l, HighOrder l' => trained_layer l l'
  | _, _ => False
  end.
Definition trained_attribute (l l' : option any_conv) : Prop :=
  match l, l' with None, None => True | Some l, Some l' => trained_conv l l' | _, _ => False end.
Definition trained_mnist (m m' : mnist_net) : Prop :=
  trained_conv (mn_conv1 m) (mn_conv1 m') /\ trained_attribute (mn_conv15 m) (mn_conv15 m') /\ trained_conv (mn_conv2 m) (mn_conv2 m') /\
  trained_attribute (mn_conv25 m) (mn_conv25 m') /\ mn_normalize m' = mn_normalize m /\ mn_fc1 m' = mn_fc1 m.

Lemma trained_conv_refl l : trained_conv l l.
Proof. destruct l as [l|[l|l]]; cbn; [auto| |]; exists (cv_w l); (split; [reflexivity|now destruct l]). Qed.
Lemma trained_mnist_refl m : trained_mnist m m.
Proof.
  assert (Ta : forall l, trained_attribute l l) by (intros [l|]; cbn; auto using trained_conv_refl).
  repeat (split; [auto using trained_conv_refl|]). reflexivity.
Qed.

(** The kernel sizes for which the last layer has the right number of inputs. *)
Definition kernel_works (c : mnist_cfg) : Prop :=
  if mc_double c then (mc_kernel_size c = 3 \/ mc_kernel_size c = 4)%nat
  else (mc_kernel_size c = 3 \/ mc_kernel_size c = 4 \/ mc_kernel_size c = 5)%nat.

(** A convolution of the network, from its construction on. *)
Definition conv_in_net (c : mnist_cfg) (i o : nat) (l : any_conv) : Prop :=
  exists u draw l0, mnist_conv c i o u draw = Ok l0 /\ trained_conv l0 l.

Lemma net_conv c k i o l H : mnist_ok c k -> (1 <= i)%nat -> (1 <= o)%nat -> conv_in_net c i o l ->
  ((mc_kernel_size c <= H)%nat -> samplewise (any_conv_forward l) [i; H; H] [o; H - mc_kernel_size c + 1; H - mc_kernel_size c + 1]%nat) /\
  ((H < mc_kernel_size c)%nat -> fails (any_conv_forward l) [i; H; H]).
Proof.
  intros [T Hn Hs _ _ Hk _ _] Hi Ho (u & draw & l0 & E & Tr). unfold mnist_conv, rmap in E.
  destruct (high_order_convolution_layers (mc_layer_type c) (mnist_conv_args c i o) u draw) as [l1|] eqn:E1; cbn [rbind] in E; [|discriminate]. injection E as <-.
  destruct l as [l|l]; cbn [trained_conv] in Tr; [contradiction|]. set (a := mnist_conv_args c i o) in *.
  assert (G : good_args a) by (repeat split; cbn; auto; lia).
  assert (Fi : fits a H <-> (mc_kernel_size c <= H)%nat) by (unfold fits, a; cbn [mnist_conv_args a_dilation a_kernel a_padding]; lia).
  assert (Ps : (mc_kernel_size c <= H)%nat -> positions a H = (H - mc_kernel_size c + 1)%nat).
  { intros L. unfold positions, a. cbn [mnist_conv_args a_dilation a_kernel a_padding a_stride]. rewrite Nat.div_1_r. lia. }
  split; intros L; cbn [any_conv_forward].
  - rewrite <- (Ps L). change i with (a_in a) at 1. change o with (a_out a) at 1. apply (sw_conv (mc_layer_type c) k a u draw l1 l H H); auto; now apply Fi.
  - change i with (a_in a). apply (fail_conv (mc_layer_type c) k a u draw l1 l H H); auto. intros (F & _). apply Fi in F. lia.
Qed.

Lemma net_conv_ok c k i o l H : mnist_ok c k -> conv_in_net c i o l -> (1 <= i)%nat -> (1 <= o)%nat -> (mc_kernel_size c <= H)%nat ->
  samplewise (any_conv_forward l) [i; H; H] [o; H - mc_kernel_size c + 1; H - mc_kernel_size c + 1]%nat.
Proof. intros. now apply (net_conv c k). Qed.
Lemma net_conv_fail c k i o l H : mnist_ok c k -> conv_in_net c i o l -> (1 <= i)%nat -> (1 <= o)%nat -> (H < mc_kernel_size c)%nat ->
  fails (any_conv_forward l) [i; H; H].
Proof. intros O Hl Hi Ho. now apply (net_conv c k i o l H). Qed.

(** The numbers of features. *)
Lemma prod3 c a b : (1 <= c)%nat -> (1 <= a)%nat -> (1 <= b)%nat -> prodn [c; a; b] <> 0%nat.
Proof. cbn. nia. Qed.

Section Features.
Variables (c : mnist_cfg) (k : conv_kind) (m : mnist_net).
Hypothesis C : mnist_ok c k.
Let K := mc_kernel_size c.
Let ci := fst (mc_channels c).
Let co := snd (mc_channels c).
Hypothesis C1 : conv_in_net c 1 ci (mn_conv1 m).
Hypothesis C2 : conv_in_net c ci co (mn_conv2 m).
Hypothesis Nm : mnist_normalization (mc_normalization c) = Ok (mn_normalize m).
Local Open Scope nat_scope.

Lemma not_standard : String.eqb (mc_layer_type c) "standard" = false.
Proof.
  destruct C as [T _ _ _ _ _ _ _]. unfold conv_class_names in T. cbn [In] in T. destruct (String.eqb_spec (mc_layer_type c) "standard") as [E|]; [|reflexivity].
  rewrite E in T. repeat (destruct T as [T|T]; [discriminate T|]). contradiction.
Qed.

Definition single_features : tensor R -> res (tensor R) := fun x =>
  x <- any_conv_forward (mn_conv1 m) x ;; x <- avg_pool2d x ;; x <- mn_normalize m x ;;
  x <- any_conv_forward (mn_conv2 m) x ;; x <- avg_pool2d x ;; mn_normalize m x.

Definition single_mid : tensor R -> res (tensor R) := fun x =>
  x <- avg_pool2d x ;; x <- mn_normalize m x ;;
  x <- any_conv_forward (mn_conv2 m) x ;; avg_pool2d x.
Definition single_prefix : tensor R -> res (tensor R) := fun x => x <- any_conv_forward (mn_conv1 m) x ;; single_mid x.
Lemma single_split x : single_features x = (y <- single_prefix x ;; mn_normalize m y).
Proof.
  unfold single_features, single_prefix, single_mid. destruct any_conv_forward as [x1|]; cbn [rbind]; [|reflexivity]. destruct avg_pool2d as [x2|]; cbn [rbind]; [|reflexivity].
  destruct mn_normalize as [x3|]; cbn [rbind]; [|reflexivity]. destruct any_conv_forward as [x4|]; cbn [rbind]; reflexivity.
Qed.
Lemma single_mid_ok p1 p2 : K <= 28 -> 2 <= 28 - K + 1 -> p1 = (28 - K + 1) / 2 -> K <= p1 -> 2 <= p1 - K + 1 -> p2 = (p1 - K + 1) / 2 ->
  samplewise single_mid [ci; 28 - K + 1; 28 - K + 1] [co; p2; p2].
Proof.
  intros H1 H2 E1 H3 H4 E2. pose proof C as [_ _ _ Hi Ho _ _ _]. fold ci in Hi. fold co in Ho. unfold single_mid.
  assert (P1 : 1 <= p1) by (subst p1; apply (Nat.div_le_lower_bound _ 2 1); lia). assert (P2 : 1 <= p2) by (subst p2; apply (Nat.div_le_lower_bound _ 2 1); lia).
  refine (sw_comp _ _ _ [ci; p1; p1] _ _ _). { subst p1. now apply sw_pool. }
  refine (sw_comp _ _ _ [ci; p1; p1] _ _ _). { eapply sw_norm; [exact Nm|]. now apply prod3. }
  refine (sw_comp _ _ _ [co; p1 - K + 1; p1 - K + 1] _ _ _). { now apply (net_conv_ok c k). }
  subst p2. now apply sw_pool.
Qed.
Lemma single_prefix_ok p1 p2 : K <= 28 -> 2 <= 28 - K + 1 -> p1 = (28 - K + 1) / 2 -> K <= p1 -> 2 <= p1 - K + 1 -> p2 = (p1 - K + 1) / 2 ->
  samplewise single_prefix [1; 28; 28] [co; p2; p2].
Proof.
  intros H1 H2 E1 H3 H4 E2. pose proof C as [_ _ _ Hi Ho _ _ _]. fold ci in Hi.
  refine (sw_comp _ _ _ [ci; 28 - K + 1; 28 - K + 1] _ _ _); [now apply (net_conv_ok c k)|now apply (single_mid_ok p1)].
Qed.
Lemma single_ok p1 p2 : K <= 28 -> 2 <= 28 - K + 1 -> p1 = (28 - K + 1) / 2 -> K <= p1 -> 2 <= p1 - K + 1 -> p2 = (p1 - K + 1) / 2 ->
  samplewise single_features [1; 28; 28] [co; p2; p2].
Proof.
  intros H1 H2 E1 H3 H4 E2. pose proof C as [_ _ _ Hi Ho _ _ _]. fold ci in Hi. fold co in Ho. eapply sw_ext; [apply single_split|].
  refine (sw_comp _ _ _ [co; p2; p2] _ _ _); [now apply (single_prefix_ok p1)|]. eapply sw_norm; [exact Nm|]. subst p2. apply prod3; auto; apply (Nat.div_le_lower_bound _ 2 1); lia.
Qed.
Lemma single_fails : 10 <= K -> fails single_features [1; 28; 28].
Proof.
  intros H. pose proof C as [_ _ _ Hi Ho _ _ _]. fold ci in Hi. fold co in Ho. unfold single_features.
  destruct (Nat.le_gt_cases K 28) as [H1|H1]; [|apply fail_first; eapply (net_conv_fail c k); eauto].
  refine (fail_second _ _ _ [ci; 28 - K + 1; 28 - K + 1] _ _). { now apply (net_conv_ok c k). }
  destruct (Nat.le_gt_cases 2 (28 - K + 1)) as [H2|H2]; [|apply fail_first; apply fail_pool; lia].
  set (p1 := (28 - K + 1) / 2). assert (P1 : 1 <= p1 < K). { split; [apply (Nat.div_le_lower_bound _ 2 1); lia|apply Nat.div_lt_upper_bound; lia]. }
  refine (fail_second _ _ _ [ci; p1; p1] _ _). { now apply sw_pool. }
  refine (fail_second _ _ _ [ci; p1; p1] _ _). { eapply sw_norm; [exact Nm|]. apply prod3; lia. }
  apply fail_first. eapply (net_conv_fail c k); eauto; fold K; lia.
Qed.

Definition double_features (conv15 conv25 : any_conv) : tensor R -> res (tensor R) := fun x =>
  x <- any_conv_forward (mn_conv1 m) x ;; x <- mn_normalize m x ;;
  x <- any_conv_forward conv15 x ;; x <- avg_pool2d x ;; x <- mn_normalize m x ;;
  x <- any_conv_forward (mn_conv2 m) x ;; x <- mn_normalize m x ;;
  x <- any_conv_forward conv25 x ;; x <- avg_pool2d x ;; mn_normalize m x.

Definition double_mid (conv15 conv25 : any_conv) : tensor R -> res (tensor R) := fun x =>
  x <- mn_normalize m x ;;
  x <- any_conv_forward conv15 x ;; x <- avg_pool2d x ;; x <- mn_normalize m x ;;
  x <- any_conv_forward (mn_conv2 m) x ;; x <- mn_normalize m x ;;
  x <- any_conv_forward conv25 x ;; avg_pool2d x.
Definition double_prefix (conv15 conv25 : any_conv) : tensor R -> res (tensor R) := fun x => x <- any_conv_forward (mn_conv1 m) x ;; double_mid conv15 conv25 x.
Lemma double_split conv15 conv25 x : double_features conv15 conv25 x = (y <- double_prefix conv15 conv25 x ;; mn_normalize m y).
Proof.
  unfold double_features, double_prefix, double_mid. repeat (match goal with |- context [rbind ?r _] => destruct r; cbn [rbind]; try reflexivity end).
Qed.
Lemma double_mid_ok conv15 conv25 p2 : conv_in_net c ci ci conv15 -> conv_in_net c co co conv25 -> 1 <= K -> K <= 5 -> p2 = (17 - 3 * K) / 2 ->
  samplewise (double_mid conv15 conv25) [ci; 28 - K + 1; 28 - K + 1] [co; p2; p2].
Proof.
  intros C15 C25 H0 H1 E2. pose proof C as [_ _ _ Hi Ho _ _ _]. fold ci in Hi. fold co in Ho. unfold double_mid.
  assert (P2 : 1 <= p2) by (subst p2; apply (Nat.div_le_lower_bound _ 2 1); lia).
  refine (sw_comp _ _ _ [ci; 28 - K + 1; 28 - K + 1] _ _ _). { eapply sw_norm; [exact Nm|]. apply prod3; lia. }
  refine (sw_comp _ _ _ [ci; 28 - K + 1 - K + 1; 28 - K + 1 - K + 1] _ _ _). { apply (net_conv_ok c k); auto; fold K; lia. }
  refine (sw_comp _ _ _ [ci; 15 - K; 15 - K] _ _ _).
  { replace (15 - K) with ((28 - K + 1 - K + 1) / 2). { apply sw_pool; lia. } symmetry. apply (Nat.div_unique _ 2 _ 0); lia. }
  refine (sw_comp _ _ _ [ci; 15 - K; 15 - K] _ _ _). { eapply sw_norm; [exact Nm|]. apply prod3; lia. }
  refine (sw_comp _ _ _ [co; 15 - K - K + 1; 15 - K - K + 1] _ _ _). { apply (net_conv_ok c k); auto; fold K; lia. }
  refine (sw_comp _ _ _ [co; 15 - K - K + 1; 15 - K - K + 1] _ _ _). { eapply sw_norm; [exact Nm|]. apply prod3; lia. }
  refine (sw_comp _ _ _ [co; 15 - K - K + 1 - K + 1; 15 - K - K + 1 - K + 1] _ _ _). { apply (net_conv_ok c k); auto; fold K; lia. }
  replace (15 - K - K + 1 - K + 1) with (17 - 3 * K) by lia. subst p2. apply sw_pool; lia.
Qed.
Lemma double_prefix_ok conv15 conv25 p2 : conv_in_net c ci ci conv15 -> conv_in_net c co co conv25 -> 1 <= K -> K <= 5 -> p2 = (17 - 3 * K) / 2 ->
  samplewise (double_prefix conv15 conv25) [1; 28; 28] [co; p2; p2].
Proof.
  intros C15 C25 H0 H1 E2. pose proof C as [_ _ _ Hi Ho _ _ _]. fold ci in Hi.
  refine (sw_comp _ _ _ [ci; 28 - K + 1; 28 - K + 1] _ _ _); [|now apply double_mid_ok]. apply (net_conv_ok c k); auto; fold K; lia.
Qed.
Lemma double_ok conv15 conv25 p2 : conv_in_net c ci ci conv15 -> conv_in_net c co co conv25 -> 1 <= K -> K <= 5 -> p2 = (17 - 3 * K) / 2 ->
  samplewise (double_features conv15 conv25) [1; 28; 28] [co; p2; p2].
Proof.
  intros C15 C25 H0 H1 E2. pose proof C as [_ _ _ Hi Ho _ _ _]. fold ci in Hi. fold co in Ho. eapply sw_ext; [apply double_split|].
  refine (sw_comp _ _ _ [co; p2; p2] _ _ _); [now apply double_prefix_ok|]. eapply sw_norm; [exact Nm|]. subst p2. apply prod3; auto; apply (Nat.div_le_lower_bound _ 2 1); lia.
Qed.
Lemma double_fails conv15 conv25 : conv_in_net c ci ci conv15 -> conv_in_net c co co conv25 -> 6 <= K ->
  fails (double_features conv15 conv25) [1; 28; 28].
Proof.
  intros C15 C25 H. pose proof C as [_ _ _ Hi Ho _ _ _]. fold ci in Hi. fold co in Ho. unfold double_features.
  destruct (Nat.le_gt_cases K 28) as [H1|H1]; [|apply fail_first; eapply (net_conv_fail c k); eauto].
  refine (fail_second _ _ _ [ci; 28 - K + 1; 28 - K + 1] _ _). { now apply (net_conv_ok c k). }
  refine (fail_second _ _ _ [ci; 28 - K + 1; 28 - K + 1] _ _). { eapply sw_norm; [exact Nm|]. apply prod3; lia. }
  destruct (Nat.le_gt_cases K 14) as [H2|H2]; [|apply fail_first; eapply (net_conv_fail c k); eauto; fold K; lia].
  refine (fail_second _ _ _ [ci; 28 - K + 1 - K + 1; 28 - K + 1 - K + 1] _ _). { apply (net_conv_ok c k); auto; fold K; lia. }
  refine (fail_second _ _ _ [ci; 15 - K; 15 - K] _ _).
  { replace (15 - K) with ((28 - K + 1 - K + 1) / 2). { apply sw_pool; lia. } symmetry. apply (Nat.div_unique _ 2 _ 0); lia. }
  refine (fail_second _ _ _ [ci; 15 - K; 15 - K] _ _). { eapply sw_norm; [exact Nm|]. apply prod3; lia. }
  destruct (Nat.le_gt_cases K 7) as [H3|H3]; [|apply fail_first; eapply (net_conv_fail c k); eauto; fold K; lia].
  refine (fail_second _ _ _ [co; 15 - K - K + 1; 15 - K - K + 1] _ _). { apply (net_conv_ok c k); auto; fold K; lia. }
  refine (fail_second _ _ _ [co; 15 - K - K + 1; 15 - K - K + 1] _ _). { eapply sw_norm; [exact Nm|]. apply prod3; lia. }
  apply fail_first. eapply (net_conv_fail c k); eauto; fold K; lia.
Qed.
End Features.

(** ** The last layer and the network *)

Lemma length_two g t n I O s : flat_layer t (Int n) (Some (Int s)) -> forall ro ini h,
  high_order_fc_layers g t (mkArgs (Int n) I O (Some (Int s)) (Some 2) None None 2 ro ini) h =
  high_order_fc_layers g t (mkArgs (Int n) I O (Some (Int s)) None None None 2 ro ini) h.
Proof.
  intros F ro ini h. destruct F as [F|[(F & _)|(F & _)]]; cbn in F; repeat (destruct F as [<-|F]; [reflexivity|]); contradiction.
Qed.

Lemma auto_flat c k : mnist_ok c k -> flat_layer (drop_last2 (mc_layer_type c)) (Int (mc_n c)) (Some (Int (mc_segments c))).
Proof.
  intros [T Hn Hs _ _ _ _ _]. unfold conv_class_names in T. cbn [In] in T.
  destruct T as [T|[T|[T|[T|[T|[T|[T|[]]]]]]]]; injection T as E Ek; try discriminate; rewrite <- E.
  - right. right. split; [cbn; tauto|]. eauto 10.
  - right. right. split; [cbn; tauto|]. eauto 10.
  - right. left. split; [cbn; tauto|]. eauto 10.
  - right. left. split; [cbn; tauto|]. eauto 10.
Qed.

Lemma last_size c k : mnist_ok c k -> (1 <= mnist_last_layer_size c)%nat.
Proof. intros [_ _ _ _ Ho _ _ _]. unfold mnist_last_layer_size. destruct (mc_double c), (Nat.eqb _ 3); lia. Qed.

Lemma fc1_typed g c k h : mnist_ok c k -> wf_heap h -> makesq true (mnist_fc1 g c) h (mnist_last_layer_size c) 10.
Proof.
  intros O W. pose proof (last_size c k O) as L. pose proof O as [_ Hn Hs _ _ _ _ Out]. unfold mnist_fc1.
  destruct (String.eqb_spec (mc_output_layer_type c) "linear") as [|N1]; [now apply makes_linear|].
  destruct (String.eqb_spec (mc_output_layer_type c) "auto") as [|N2]; cbv zeta.
  - pose proof (auto_flat c k O) as F. unfold makesq. rewrite length_two by exact F. apply (makes_flatq true); auto; lia.
  - assert (F : flat_layer (mc_output_layer_type c) (Int (mc_n c)) (Some (Int (mc_segments c)))) by tauto.
    unfold makesq. rewrite length_two by exact F. apply (makes_flatq true); auto; lia.
Qed.

(** A network of the example with any weights. *)
Definition mnist_network (c : mnist_cfg) (m : mnist_net) (h : heap) : Prop :=
  exists g u draw h0 h1 m0, wf_heap h0 /\ new_mnist g c u draw h0 = Ok (m0, h1) /\ trained_mnist m0 m /\ retrained h1 h.

Lemma rmap_Some {A} (r : res A) o : rmap Some r = Ok o -> exists a, o = Some a /\ r = Ok a.
Proof. destruct r; cbn; [|discriminate]. intros E. injection E as <-. eauto. Qed.

Lemma network_parts c k m h : mnist_ok c k -> mnist_network c m h ->
  conv_in_net c 1 (fst (mc_channels c)) (mn_conv1 m) /\ conv_in_net c (fst (mc_channels c)) (snd (mc_channels c)) (mn_conv2 m) /\
  (mc_double c = true -> exists conv15 conv25, mn_conv15 m = Some conv15 /\ mn_conv25 m = Some conv25 /\
     conv_in_net c (fst (mc_channels c)) (fst (mc_channels c)) conv15 /\ conv_in_net c (snd (mc_channels c)) (snd (mc_channels c)) conv25) /\
  mnist_normalization (mc_normalization c) = Ok (mn_normalize m) /\
  rowwise (mnist_last_layer_size c) 10 (call h (mn_fc1 m)) /\
  (mc_output_layer_type c = "linear"%string -> forall W, W <> mnist_last_layer_size c -> fails (call h (mn_fc1 m)) [W]).
Proof.
  intros O (g & u & draw & h0 & h1 & m0 & W & E & (T1 & T15 & T2 & T25 & Tn & Tf) & R). unfold new_mnist in E.
  unfold mthen at 1, mlift at 1 in E. destruct (mnist_convs c u draw) as [[[[conv1 conv15] conv2] conv25]|] eqn:Ec; [|discriminate].
  unfold mthen at 1, mlift at 1 in E. destruct (mnist_normalization (mc_normalization c)) as [f|] eqn:Ef; [|discriminate].
  destruct (fc1_typed g c k h0 O W) as (fc & e & Efc & We & (Lk & Ty) & _). unfold mthen at 1 in E. rewrite Efc in E. injection E as <- <-.
  cbn [mn_conv1 mn_conv15 mn_conv2 mn_conv25 mn_normalize mn_fc1] in *.
  unfold mnist_convs in Ec. rewrite (not_standard c k O) in Ec. destruct (mc_channels c) as (ci, co) eqn:Ech.
  cbn [fst snd]. destruct (mnist_conv c 1 ci (u 0%nat) (draw 0%nat)) as [a1|] eqn:E1; cbn [rbind] in Ec; [|discriminate].
  destruct (if mc_double c then rmap Some (mnist_conv c ci ci (u 1%nat) (draw 1%nat)) else Ok None) as [a15|] eqn:E15; cbn [rbind] in Ec; [|discriminate].
  destruct (mnist_conv c ci co (u 2%nat) (draw 2%nat)) as [a2|] eqn:E2; cbn [rbind] in Ec; [|discriminate].
  destruct (if mc_double c then rmap Some (mnist_conv c co co (u 3%nat) (draw 3%nat)) else Ok None) as [a25|] eqn:E25; cbn [rbind] in Ec; [|discriminate].
  injection Ec as -> -> -> ->.
  split; [exists (u 0%nat), (draw 0%nat), conv1; auto|]. split; [exists (u 2%nat), (draw 2%nat), conv2; auto|]. split; [|split; [|split]].
  - intros D. rewrite D in E15, E25. destruct (rmap_Some _ _ E15) as (b15 & -> & F15), (rmap_Some _ _ E25) as (b25 & -> & F25).
    cbn [trained_attribute] in T15, T25. destruct (mn_conv15 m) as [c15|]; [|contradiction]. destruct (mn_conv25 m) as [c25|]; [|contradiction].
    exists c15, c25. repeat (split; [reflexivity|]). split; [exists (u 1%nat), (draw 1%nat), b15; auto|exists (u 3%nat), (draw 3%nat), b25; auto].
  - now rewrite Tn.
  - rewrite Tf. apply (Ty h). now apply later_retrained.
  - intros Lin Wd Hne x B HB Hx. rewrite Tf. unfold mnist_fc1 in Efc. rewrite Lin in Efc. cbn [String.eqb Ascii.eqb Bool.eqb] in Efc.
    unfold Linear, alloc in Efc. injection Efc as Ek Ee. apply app_inv_head in Ee.
    assert (Wh : wf_heap h) by now apply (retrained_wf (h0 ++ e)). assert (Lh : (length h0 < length h)%nat) by (destruct R as (-> & _); rewrite app_length, <- Ee; cbn; lia).
    rewrite call_unfold by (subst fc; auto; lia). pose proof (proj2 R fc ltac:(lia)) as Rw. rewrite <- Ek, <- Ee, get_last in Rw. rewrite <- Ek.
    inversion Rw as [| | | | |? ? w' b' Sw Sb|]; cbn [obj_forward]; unfold Linear_forward; rewrite ?Sw; cbn [shape]; rewrite Hx; cbn [rev app];
      (destruct (Nat.eqb_spec Wd (mnist_last_layer_size c)); [contradiction|reflexivity]).
Qed.

Lemma mnist_chain c k m h : mnist_ok c k -> mnist_network c m h ->
  forall x, mnist_forward h c m x = (x <- (x <- (if mc_double c then
      match mn_conv15 m, mn_conv25 m with Some a, Some b => double_features m a b x | _, _ => Err AttributeError end else single_features m x) ;;
    view_infer [nth 0 (shape x) 0%nat] [] x) ;; call h (mn_fc1 m) x).
Proof.
  intros O N x. destruct (network_parts c k m h O N) as (_ & _ & D & _). unfold mnist_forward, mnist_features. rewrite (not_standard c k O).
  destruct (mc_double c) eqn:Ed; cbn [negb]; [|reflexivity]. destruct (D eq_refl) as (a & b & -> & -> & _). cbn [attribute rbind]. reflexivity.
Qed.

(** ** C92 *)

(** The network is built for every such configuration, whatever the kernel size. *)
Theorem C92_construction : forall g c k u draw h0, mnist_ok c k -> wf_heap h0 ->
  exists m h, new_mnist g c u draw h0 = Ok (m, h) /\ mnist_network c m h.
Proof.
  intros g c k u draw h0 O W. pose proof O as [T Hn Hs Hi Ho Hk Hm _].
  assert (Cv : forall i o a b, (1 <= i)%nat -> (1 <= o)%nat -> exists l, mnist_conv c i o a b = Ok (HighOrder l) /\ trained_layer l l).
  { intros i o a b Hi' Ho'. destruct (factory_ok _ 2 k (mnist_conv_args c i o) a b T) as (l & El); [repeat split; cbn; auto; lia|].
    exists l. unfold mnist_conv, rmap. rewrite El. split; [reflexivity|]. destruct l as [l|l]; exists (cv_w l); (split; [reflexivity|now destruct l]). }
  assert (exists f, mnist_normalization (mc_normalization c) = Ok f) as (f & Ef) by (destruct Hm as [<-|[<-|[]]]; cbn; eauto).
  destruct (fc1_typed g c k h0 O W) as (fc & e & Efc & We & _).
  assert (exists cs, mnist_convs c u draw = Ok cs /\ let '(c1, c15, c2, c25) := cs in trained_conv c1 c1 /\ trained_attribute c15 c15 /\ trained_conv c2 c2 /\ trained_attribute c25 c25) as ([[[c1 c15] c2] c25] & Ec & T1 & T15 & T2 & T25).
  { unfold mnist_convs. rewrite (not_standard c k O). destruct (mc_channels c) as (ci, co). cbn [fst snd] in *.
    destruct (Cv 1%nat ci (u 0%nat) (draw 0%nat)) as (l1 & -> & T1); auto. destruct (Cv ci ci (u 1%nat) (draw 1%nat)) as (l15 & -> & T15); auto.
    destruct (Cv ci co (u 2%nat) (draw 2%nat)) as (l2 & -> & T2); auto. destruct (Cv co co (u 3%nat) (draw 3%nat)) as (l25 & -> & T25); auto.
    destruct (mc_double c); cbn; eexists; (split; [reflexivity|]); cbn; auto. }
  exists (mkMnist c1 c15 c2 c25 f fc), (h0 ++ e). assert (E : new_mnist g c u draw h0 = Ok (mkMnist c1 c15 c2 c25 f fc, h0 ++ e)).
  { unfold new_mnist. unfold mthen at 1, mlift at 1. rewrite Ec. unfold mthen at 1, mlift at 1. rewrite Ef. unfold mthen at 1. rewrite Efc. reflexivity. }
  split; [exact E|]. exists g, u, draw, h0, (h0 ++ e), (mkMnist c1 c15 c2 c25 f fc). split; [exact W|]. split; [exact E|]. split; [|apply retrained_refl].
  repeat (split; [assumption|]). split; reflexivity.
Qed.
Print Assumptions C92_construction.

Lemma mnist_samplewise c k m h : mnist_ok c k -> mnist_network c m h -> kernel_works c -> samplewise (mnist_forward h c m) [1; 28; 28]%nat [10]%nat.
Proof.
  intros O N Kw. destruct (network_parts c k m h O N) as (C1 & C2 & D & Nm & Rw & _).
  eapply sw_ext; [apply (mnist_chain c k m h O N)|]. unfold kernel_works in Kw. apply sw_rowwise in Rw.
  assert (L : exists p, samplewise (fun x => if mc_double c then match mn_conv15 m, mn_conv25 m with Some a, Some b => double_features m a b x | _, _ => Err AttributeError end else single_features m x)
     [1; 28; 28]%nat [snd (mc_channels c); p; p] /\ prodn [snd (mc_channels c); p; p] = mnist_last_layer_size c).
  { unfold mnist_last_layer_size. destruct (mc_double c).
    - destruct (D eq_refl) as (a & b & -> & -> & C15 & C25). eexists. split.
      + apply (double_ok c k m O C1 C2 Nm a b _ C15 C25); [lia|lia|reflexivity].
      + destruct Kw as [Ek|Ek]; rewrite Ek; cbn; lia.
    - eexists. split.
      + eapply (single_ok c k m O C1 C2 Nm); [lia|lia|reflexivity|..]; [| |reflexivity]; destruct Kw as [Ek|[Ek|Ek]]; rewrite Ek; cbn; lia.
      + destruct Kw as [Ek|[Ek|Ek]]; rewrite Ek; cbn; lia. }
  destruct L as (p & Sw & Ep). rewrite <- Ep in Rw. refine (sw_comp _ _ _ _ _ _ Rw). refine (sw_comp _ _ _ _ _ Sw _). apply sw_flatten.
Qed.

(** Ten logits per image if the kernel size is 3, 4 or 5 (3 or 4 with [double]); otherwise, with a linear output layer, every
    batch is rejected. *)
Theorem C92_shape : forall c k m h x B, mnist_ok c k -> mnist_network c m h -> (1 <= B)%nat -> shape x = [B; 1; 28; 28]%nat ->
  (kernel_works c -> exists y, mnist_forward h c m x = Ok y /\ shape y = [B; 10]%nat) /\
  (~ kernel_works c -> mc_output_layer_type c = "linear"%string -> mnist_forward h c m x = Err RuntimeError).
Proof.
  intros c k m h x B O N HB Hx. split.
  - intros Kw. exact (sw_total _ _ _ (mnist_samplewise c k m h O N Kw) x B HB Hx).
  - intros Kw Lin. destruct (network_parts c k m h O N) as (C1 & C2 & D & Nm & _ & Fl). specialize (Fl Lin). pose proof O as [_ _ _ _ Ho Hk _ _].
    rewrite (mnist_chain c k m h O N). unfold kernel_works in Kw. unfold mnist_last_layer_size in Fl. destruct (mc_double c).
    + destruct (D eq_refl) as (a & b & -> & -> & C15 & C25).
      destruct (Nat.le_gt_cases 6 (mc_kernel_size c)) as [H6|H6]; [now rewrite (double_fails c k m O C1 C2 Nm a b C15 C25 H6 x B HB Hx)|].
      pose proof (double_ok c k m O C1 C2 Nm a b _ C15 C25 Hk ltac:(lia) eq_refl) as Sw.
      set (p := ((17 - 3 * mc_kernel_size c) / 2)%nat) in *.
      destruct (sw_total _ _ _ (sw_comp _ _ _ _ _ Sw (sw_flatten _)) x B HB Hx) as (y & Ey & Sy). rewrite Ey. cbn [rbind]. apply (Fl (prodn [snd (mc_channels c); p; p])) with B; auto.
      clear Fl Sw Ey Sy. destruct (mc_kernel_size c) as [|[|[|[|[|[|]]]]]]; try lia; cbn in p; subst p; cbn; lia.
    + destruct (Nat.le_gt_cases 10 (mc_kernel_size c)) as [H6|H6]; [now rewrite (single_fails c k m O C1 C2 Nm H6 x B HB Hx)|].
      assert (exists p, samplewise (single_features m) [1; 28; 28]%nat [snd (mc_channels c); p; p] /\
        prodn [snd (mc_channels c); p; p] <> (if Nat.eqb (mc_kernel_size c) 3 then 5 * 5 * snd (mc_channels c) else 4 * 4 * snd (mc_channels c))%nat) as (p & Sw & Np).
      { eexists. split; [eapply (single_ok c k m O C1 C2 Nm); [lia|lia|reflexivity|..]; [| |reflexivity]|];
          destruct (mc_kernel_size c) as [|[|[|[|[|[|[|[|[|[|]]]]]]]]]]; try lia; cbn; lia. }
      destruct (sw_total _ _ _ (sw_comp _ _ _ _ _ Sw (sw_flatten _)) x B HB Hx) as (y & Ey & Sy). rewrite Ey. cbn [rbind]. now apply (Fl (prodn [snd (mc_channels c); p; p])) with B.
Qed.
Print Assumptions C92_shape.

(** The other images of the batch do not matter. *)
Theorem C92_samples_independent : forall c k m h x x' B B' b b', mnist_ok c k -> mnist_network c m h -> kernel_works c ->
  shape x = [B; 1; 28; 28]%nat -> shape x' = [B'; 1; 28; 28]%nat -> (b < B)%nat -> (b' < B')%nat ->
  (forall i j, (i < 28)%nat -> (j < 28)%nat -> at_ x [b; 0; i; j]%nat = at_ x' [b'; 0; i; j]%nat) ->
  exists y y', mnist_forward h c m x = Ok y /\ mnist_forward h c m x' = Ok y' /\ forall o, (o < 10)%nat -> at_ y [b; o] = at_ y' [b'; o].
Proof.
  intros c k m h x x' B B' b b' O N Kw Hx Hx' Hb Hb' H.
  destruct (mnist_samplewise c k m h O N Kw x x' B B' b b' Hx Hx' Hb Hb') as (y & y' & Ey & Ey' & _ & _ & Q).
  - intros ix Hix. destruct ix as [|a [|i [|j [|? ?]]]]; cbn in Hix; try tauto. replace a with 0%nat by lia. now apply H.
  - exists y, y'. repeat (split; [assumption|]). intros o Ho. apply Q. cbn. auto.
Qed.
Print Assumptions C92_samples_independent.

(** The features that the last layer sees lie in (-1, 1), where the nodes of its polynomials are. *)
Theorem C92_features : forall c k m h x B, mnist_ok c k -> mnist_network c m h -> kernel_works c -> (1 <= B)%nat -> shape x = [B; 1; 28; 28]%nat ->
  exists y, mnist_features c m x = Ok y /\ shape y = [B; mnist_last_layer_size c] /\
    forall b i, (b < B)%nat -> (i < mnist_last_layer_size c)%nat -> -1 < at_ y [b; i] < 1.
Proof.
  intros c k m h x B O N Kw HB Hx. destruct (network_parts c k m h O N) as (C1 & C2 & D & Nm & _).
  assert (L : exists p f, samplewise f [1; 28; 28]%nat [snd (mc_channels c); p; p] /\
     prodn [snd (mc_channels c); p; p] = mnist_last_layer_size c /\
     mnist_features c m x = (z <- (y <- f x ;; mn_normalize m y) ;; view_infer [nth 0 (shape z) 0%nat] [] z)).
  { unfold mnist_features. rewrite (not_standard c k O). unfold mnist_last_layer_size. unfold kernel_works in Kw. destruct (mc_double c); cbn [negb].
    - destruct (D eq_refl) as (a & b & -> & -> & C15 & C25). eexists _, (double_prefix m a b). split; [|split].
      + apply (double_prefix_ok c k m O C1 C2 Nm a b _ C15 C25); [lia|lia|reflexivity].
      + destruct Kw as [Ek|Ek]; rewrite Ek; cbn; lia.
      + rewrite <- double_split. reflexivity.
    - eexists _, (single_prefix m). split; [|split].
      + eapply (single_prefix_ok c k m O C1 C2 Nm); [lia|lia|reflexivity|..]; [| |reflexivity]; destruct Kw as [Ek|[Ek|Ek]]; rewrite Ek; cbn; lia.
      + destruct Kw as [Ek|[Ek|Ek]]; rewrite Ek; cbn; lia.
      + rewrite <- single_split. reflexivity. }
  destruct L as (p & f & Sw & Ep & ->). pose proof (last_size c k O) as Lz. destruct (sw_total _ _ _ Sw x B HB Hx) as (y & Ey & Sy). rewrite Ey. cbn [rbind].
  assert (P : prodn [snd (mc_channels c); p; p] <> 0%nat) by lia.
  destruct (sw_total _ _ _ (sw_norm _ _ _ Nm P) y B HB Sy) as (z & Ez & Sz). rewrite Ez. cbn [rbind].
  destruct (norm_range _ _ y z Nm) as (_ & Rg); [rewrite Sy; discriminate|unfold numel; rewrite Sy; change (B * prodn [snd (mc_channels c); p; p] <> 0)%nat; nia|exact Ez|].
  destruct (nd_view z B _ Sz ltac:(lia)) as (r & Er & Sr & V). exists r. split; [exact Er|]. rewrite <- Ep. split; [exact Sr|].
  intros b i Hb Hi. rewrite V by exact Hi. apply Rg. rewrite Sy. split; [exact Hb|]. now apply unravel_valid.
Qed.
Print Assumptions C92_features.

(** A freshly built network (the output layer may have any weights) gives every image the same logits; not so the Fourier ones. *)
Theorem C92_fresh : forall g c k u draw h0 m h1 h x x' B B' b b', mnist_ok c k -> mc_layer_type c <> "fourier2d"%string -> kernel_works c -> wf_heap h0 ->
  new_mnist g c u draw h0 = Ok (m, h1) -> retrained h1 h ->
  shape x = [B; 1; 28; 28]%nat -> shape x' = [B'; 1; 28; 28]%nat -> (b < B)%nat -> (b' < B')%nat ->
  exists y y', mnist_forward h c m x = Ok y /\ mnist_forward h c m x' = Ok y' /\ shape y = [B; 10]%nat /\ shape y' = [B'; 10]%nat /\
    forall o, (o < 10)%nat -> at_ y [b; o] = at_ y' [b'; o].
Proof.
  intros g c k u draw h0 m h1 h x x' B B' b b' O NF Kw W En R Hx Hx' Hb Hb'.
  assert (T0 : exists u0 d0, mnist_conv c 1 (fst (mc_channels c)) u0 d0 = Ok (mn_conv1 m)).
  { unfold new_mnist in En. unfold mthen at 1, mlift at 1 in En. destruct (mnist_convs c u draw) as [[[[conv1 conv15] conv2] conv25]|] eqn:Ec; [|discriminate].
    unfold mthen at 1, mlift at 1 in En. destruct (mnist_normalization (mc_normalization c)) as [f|]; [|discriminate].
    unfold mthen at 1 in En. destruct (mnist_fc1 g c h0) as [[fc h2]|]; [|discriminate]. injection En as <- <-. cbn [mn_conv1].
    unfold mnist_convs in Ec. rewrite (not_standard c k O) in Ec. destruct (mc_channels c) as (ci, co). cbn [fst].
    destruct (mnist_conv c 1 ci (u 0%nat) (draw 0%nat)) as [a1|] eqn:E1; cbn [rbind] in Ec; [|discriminate].
    destruct (if mc_double c then rmap Some (mnist_conv c ci ci (u 1%nat) (draw 1%nat)) else Ok None) as [a15|]; cbn [rbind] in Ec; [|discriminate].
    destruct (mnist_conv c ci co (u 2%nat) (draw 2%nat)) as [a2|]; cbn [rbind] in Ec; [|discriminate].
    destruct (if mc_double c then rmap Some (mnist_conv c co co (u 3%nat) (draw 3%nat)) else Ok None) as [a25|]; cbn [rbind] in Ec; [|discriminate].
    injection Ec as <- _ _ _. eauto. }
  assert (N : mnist_network c m h).
  { exists g, u, draw, h0, h1, m. repeat (split; [assumption|]). split; [apply trained_mnist_refl|exact R]. }
  destruct (network_parts c k m h O N) as (C1 & C2 & D & Nm & Rw & _). pose proof O as [T Hn Hs Hi Ho Hk _ _].
  assert (K28 : (mc_kernel_size c <= 28)%nat) by (unfold kernel_works in Kw; destruct (mc_double c); lia).
  assert (Bl : blind (any_conv_forward (mn_conv1 m)) [1; 28; 28]%nat [fst (mc_channels c); 28 - mc_kernel_size c + 1; 28 - mc_kernel_size c + 1]%nat).
  { apply blind_teq; [now apply (net_conv_ok c k)|]. destruct T0 as (u0 & d0 & E0). unfold mnist_conv, rmap in E0.
    destruct (high_order_convolution_layers (mc_layer_type c) (mnist_conv_args c 1 (fst (mc_channels c))) u0 d0) as [l1|] eqn:E1; cbn [rbind] in E0; [|discriminate]. injection E0 as <-.
    intros z z' n y y' Hz Hz' Ey Ey'. cbn [any_conv_forward] in Ey, Ey'.
    refine (fresh_layer (mc_layer_type c) k (mnist_conv_args c 1 (fst (mc_channels c))) u0 d0 l1 z z' n 28 28 y y' T _ _ _ E1 Hz Hz' _ _ Ey Ey'); try (unfold fits; cbn; lia).
    - intros ->. apply NF. unfold conv_class_names in T. cbn [In] in T. repeat (destruct T as [T|T]; [congruence|]). contradiction.
    - repeat split; cbn; auto; lia.
    - cbn. lra. }
  apply sw_rowwise in Rw. assert (L : blind (mnist_forward h c m) [1; 28; 28]%nat [10]%nat).
  { eapply blind_ext; [apply (mnist_chain c k m h O N)|].
    assert (L : exists p, blind (fun x => if mc_double c then match mn_conv15 m, mn_conv25 m with Some a, Some b => double_features m a b x | _, _ => Err AttributeError end else single_features m x)
     [1; 28; 28]%nat [snd (mc_channels c); p; p] /\ prodn [snd (mc_channels c); p; p] = mnist_last_layer_size c).
    { unfold mnist_last_layer_size. unfold kernel_works in Kw. destruct (mc_double c).
      - destruct (D eq_refl) as (a & a' & -> & -> & C15 & C25). eexists. split.
        + eapply blind_ext; [apply double_split|]. eapply blind_comp; [eapply blind_comp; [exact Bl|eapply (double_mid_ok c k m O C2 Nm a a'); [exact C15|exact C25|lia|lia|reflexivity]]|].
          eapply sw_norm; [exact Nm|]. apply prod3; auto; apply (Nat.div_le_lower_bound _ 2 1); lia.
        + destruct Kw as [Ek|Ek]; rewrite Ek; cbn; lia.
      - eexists. split.
        + eapply blind_ext; [apply single_split|]. eapply blind_comp; [eapply blind_comp; [exact Bl|eapply (single_mid_ok c k m O C2 Nm); [lia|lia|reflexivity|..]; [| |reflexivity]]|].
          1, 2: destruct Kw as [Ek|[Ek|Ek]]; rewrite Ek; cbn; lia.
          eapply sw_norm; [exact Nm|]. destruct Kw as [Ek|[Ek|Ek]]; rewrite Ek; apply prod3; cbn; lia.
        + destruct Kw as [Ek|[Ek|Ek]]; rewrite Ek; cbn; lia. }
    destruct L as (p & Sw & Ep). rewrite <- Ep in Rw. refine (blind_comp _ _ _ _ _ _ Rw). refine (blind_comp _ _ _ _ _ Sw _). apply sw_flatten. }
  destruct (L x x' B B' b b' Hx Hx' Hb Hb') as (y & y' & Ey & Ey' & Sy & Sy' & Q). exists y, y'. repeat (split; [assumption|]). intros o Ho'. apply Q. cbn. auto.
Qed.
Print Assumptions C92_fresh.

(** ** The "standard" configurations: torch convolutions, relu in place of the normalisation *)

Lemma sw_pool_act (s : bool) f C H W : (2 <= H)%nat -> (2 <= W)%nat -> samplewise (fun x => pool2d f (if s then relu x else x)) [C; H; W] [C; H / 2; W / 2]%nat.
Proof.
  intros HH HW. destruct s; [|now apply sw_pool]. exact (sw_comp (fun x => Ok (relu x)) (pool2d f) _ _ _ (sw_relu [C; H; W]) (sw_pool f C H W HH HW)).
Qed.
Lemma fail_pool_act (s : bool) f C H W : (H < 2 \/ W < 2)%nat -> fails (fun x => pool2d f (if s then relu x else x)) [C; H; W].
Proof.
  intros HH. destruct s; [|now apply fail_pool]. exact (fail_second (fun x => Ok (relu x)) (pool2d f) _ _ (sw_relu [C; H; W]) (fail_pool f C H W HH)).
Qed.

Record mnist_standard_ok (c : mnist_cfg) : Prop := mkMnistStd {
  ms_type : mc_layer_type c = "standard"%string;
  ms_in : (1 <= fst (mc_channels c))%nat;
  ms_out : (1 <= snd (mc_channels c))%nat;
  ms_norm : In (mc_normalization c) ["max_abs"; "max_center"]%string;
  ms_output : mc_output_layer_type c = "linear"%string }.

Lemma standard_parts c m h : mnist_standard_ok c -> mnist_network c m h ->
  (exists l1 l2, mn_conv1 m = Standard l1 /\ mn_conv2 m = Standard l2 /\ shape (sc_weight l1) = [fst (mc_channels c); 1; 5; 5]%nat /\
     shape (sc_weight l2) = [snd (mc_channels c); fst (mc_channels c); 5; 5]%nat) /\
  mn_conv15 m = None /\ mnist_normalization (mc_normalization c) = Ok (mn_normalize m) /\
  samplewise (call h (mn_fc1 m)) [mnist_last_layer_size c] [10]%nat /\ forall W, W <> mnist_last_layer_size c -> fails (call h (mn_fc1 m)) [W].
Proof.
  intros [Ht Hi Ho Hn Lin] (g & u & draw & h0 & h1 & m0 & W & E & (T1 & T15 & T2 & T25 & Tn & Tf) & R). unfold new_mnist in E.
  unfold mthen at 1, mlift at 1 in E. unfold mnist_convs in E. rewrite Ht in E. cbn [String.eqb Ascii.eqb Bool.eqb] in E. destruct (mc_channels c) as (ci, co) eqn:Ech. cbn [fst snd] in *.
  unfold mthen at 1, mlift at 1 in E. destruct (mnist_normalization (mc_normalization c)) as [f|] eqn:Ef; [|discriminate].
  unfold mnist_fc1 in E. rewrite Lin in E. cbn [String.eqb Ascii.eqb Bool.eqb] in E. unfold mthen at 1, Linear, alloc in E. injection E as <- <-.
  cbn [mn_conv1 mn_conv15 mn_conv2 mn_conv25 mn_normalize mn_fc1] in *. split; [|split; [|split]].
  - destruct (mn_conv1 m) as [l1|]; [|contradiction]. destruct (mn_conv2 m) as [l2|]; [|contradiction]. exists l1, l2. split; [reflexivity|]. split; [reflexivity|].
    destruct T1 as (-> & _), T2 as (-> & _). split; reflexivity.
  - now destruct (mn_conv15 m).
  - now rewrite Tn.
  - rewrite Tf. set (o := OLinear _ _) in *. assert (Wo : wf_heap (h0 ++ [o])) by (apply wf_snoc; [exact W|intros ? []]).
    assert (Wh : wf_heap h) by now apply (retrained_wf (h0 ++ [o])). assert (Lh : (length h0 < length h)%nat) by (destruct R as (-> & _); rewrite app_length; cbn; lia).
    pose proof (proj2 R (length h0) ltac:(rewrite app_length; cbn; lia)) as Rw. rewrite get_last in Rw.
    assert (Ca : exists w b, shape w = [10%nat; mnist_last_layer_size c] /\ forall x, call h (length h0) x = Linear_forward w b x).
    { remember (get h (length h0)) as q eqn:Eq. unfold o in Rw. inversion Rw as [| | | | |? ? w' b' Sw Sb E1 E2|? E1 E2].
      - exists w', b'. split; [rewrite Sw; reflexivity|]. intros x. rewrite call_unfold by (auto; lia). rewrite <- Eq, <- E2. reflexivity.
      - eexists _, _. split; [|intros x; rewrite call_unfold by (auto; lia); rewrite <- Eq, <- E2; reflexivity]. reflexivity. }
    destruct Ca as (w & bi & Sw & Ca). split.
    + eapply sw_ext; [exact Ca|]. apply sw_rowwise. apply (good_linear true w bi _ _ Sw).
    + intros Wd Hne x B HB Hx. rewrite Ca. unfold Linear_forward. rewrite Sw, Hx. cbn [rev app]. destruct (Nat.eqb_spec Wd (mnist_last_layer_size c)); [contradiction|reflexivity].
Qed.

Lemma standard_chain c m l1 l2 : mc_layer_type c = "standard"%string -> mc_double c = false -> mn_conv1 m = Standard l1 -> mn_conv2 m = Standard l2 ->
  forall x, mnist_features c m x = (x <- (x <- standard_conv_forward l1 x ;; x <- avg_pool2d (relu x) ;; x <- standard_conv_forward l2 x ;; avg_pool2d (relu x)) ;;
    view_infer [nth 0 (shape x) 0%nat] [] x).
Proof. intros Ht Hd E1 E2 x. unfold mnist_features. rewrite Ht, Hd, E1, E2. reflexivity. Qed.

Lemma standard_samplewise c m h : mnist_standard_ok c -> mc_double c = false -> mnist_network c m h ->
  samplewise (mnist_features c m) [1; 28; 28]%nat [16 * snd (mc_channels c)]%nat.
Proof.
  intros S D N. destruct (standard_parts c m h S N) as ((l1 & l2 & E1 & E2 & S1 & S2) & _).
  eapply sw_ext; [apply (standard_chain c m l1 l2); auto; apply S|].
  replace (16 * snd (mc_channels c))%nat with (prodn [snd (mc_channels c); 4; 4]%nat) by (cbn; lia).
  refine (sw_comp _ _ _ _ _ _ (sw_flatten _)).
  refine (sw_comp _ _ _ [fst (mc_channels c); 24; 24]%nat _ _ _). { apply (sw_standard l1 1 (fst (mc_channels c)) 5 28 28 S1); lia. }
  refine (sw_comp _ _ _ [fst (mc_channels c); 12; 12]%nat _ _ _). { apply (sw_pool_act true _ (fst (mc_channels c)) 24 24); lia. }
  refine (sw_comp _ _ _ [snd (mc_channels c); 8; 8]%nat _ _ _). { apply (sw_standard l2 (fst (mc_channels c)) (snd (mc_channels c)) 5 12 12 S2); lia. }
  apply (sw_pool_act true _ (snd (mc_channels c)) 8 8); lia.
Qed.

(** Their kernels have size 5 whatever the configuration says, so the configured size has to be any but 3; [double] needs
    convolutions that were never made. *)
Theorem C92_standard : forall c m h x B, mnist_standard_ok c -> mnist_network c m h -> (1 <= B)%nat -> shape x = [B; 1; 28; 28]%nat ->
  (mc_double c = false -> mc_kernel_size c <> 3%nat -> exists y, mnist_forward h c m x = Ok y /\ shape y = [B; 10]%nat) /\
  (mc_double c = false -> mc_kernel_size c = 3%nat -> mnist_forward h c m x = Err RuntimeError) /\
  (mc_double c = true -> mnist_forward h c m x = Err AttributeError).
Proof.
  intros c m h x B S N HB Hx. destruct (standard_parts c m h S N) as ((l1 & l2 & E1 & E2 & S1 & S2) & E15 & Nm & Sl & Fl). pose proof S as [Ht Hi Ho Hn Lin].
  assert (Feat : mc_double c = false -> exists y, mnist_features c m x = Ok y /\ shape y = [B; 16 * snd (mc_channels c)]%nat).
  { intros D. exact (sw_total _ _ _ (standard_samplewise c m h S D N) x B HB Hx). }
  unfold mnist_last_layer_size in *. split; [|split].
  - intros D Hk. rewrite D in *. destruct (Feat eq_refl) as (y & Ey & Sy). unfold mnist_forward. rewrite Ey. cbn [rbind].
    destruct (Nat.eqb_spec (mc_kernel_size c) 3); [contradiction|]. exact (sw_total _ _ _ Sl y B HB Sy).
  - intros D Hk. rewrite D in *. destruct (Feat eq_refl) as (y & Ey & Sy). unfold mnist_forward. rewrite Ey. cbn [rbind].
    rewrite Hk in Fl. cbn [Nat.eqb] in Fl. apply (Fl (16 * snd (mc_channels c))%nat) with B; auto. lia.
  - intros D. unfold mnist_forward, mnist_features. rewrite D, E1, E15. cbn [negb any_conv_forward].
    destruct (sw_total _ _ _ (sw_standard l1 1 (fst (mc_channels c)) 5 28 28 S1 ltac:(lia) ltac:(lia)) x B HB Hx) as (y & -> & Sy). cbn [rbind].
    destruct (sw_total _ _ _ (sw_norm _ _ [fst (mc_channels c); 28 - 5 + 1; 28 - 5 + 1]%nat Nm ltac:(apply prod3; lia)) y B HB Sy) as (z & -> & _). reflexivity.
Qed.
Print Assumptions C92_standard.

(** Configurations that no network is built for. *)
Theorem C92_rejections : forall g c u draw h,
  (mc_layer_type c = "standard"%string -> In (mc_normalization c) ["max_abs"; "max_center"]%string -> mc_output_layer_type c = "auto"%string ->
     new_mnist g c u draw h = Err ValueError) /\
  (mc_layer_type c <> "standard"%string -> convolutional_layers (mc_layer_type c) = None -> new_mnist g c u draw h = Err ValueError) /\
  (forall k, mnist_ok (mkMnistCfg (mc_layer_type c) (mc_n c) (mc_segments c) (mc_channels c) (mc_kernel_size c) (mc_double c) "max_abs" (mc_output_layer_type c)) k ->
     ~ In (mc_normalization c) ["max_abs"; "max_center"]%string -> wf_heap h -> new_mnist g c u draw h = Err KeyError).
Proof.
  intros g c u draw h. split; [|split].
  - intros Ht Hn Ha. unfold new_mnist, mnist_convs. destruct (mc_channels c). rewrite Ht. cbn [String.eqb Ascii.eqb Bool.eqb].
    unfold mthen at 1, mlift at 1. unfold mthen at 1, mlift at 1. assert (exists f, mnist_normalization (mc_normalization c) = Ok f) as (f & ->) by (destruct Hn as [<-|[<-|[]]]; cbn; eauto).
    unfold mthen at 1, mnist_fc1. rewrite Ha, Ht. reflexivity.
  - intros Ht Hn. unfold new_mnist, mnist_convs. destruct (mc_channels c). destruct (String.eqb_spec (mc_layer_type c) "standard"); [contradiction|].
    unfold mnist_conv, high_order_convolution_layers. rewrite Hn. reflexivity.
  - intros k O Hn W. destruct (C92_construction g _ k u draw h O W) as (m & h' & E & _). unfold new_mnist in *. cbn [mc_normalization] in E.
    unfold mthen at 1, mlift at 1 in E. unfold mthen at 1, mlift at 1.
    change (mnist_convs (mkMnistCfg (mc_layer_type c) (mc_n c) (mc_segments c) (mc_channels c) (mc_kernel_size c) (mc_double c) "max_abs" (mc_output_layer_type c)) u draw) with (mnist_convs c u draw) in E.
    destruct (mnist_convs c u draw) as [cs|]; [|discriminate]. unfold mthen at 1, mlift at 1, mnist_normalization.
    destruct (String.eqb_spec (mc_normalization c) "max_abs") as [Q|]; [exfalso; apply Hn; rewrite Q; cbn; auto|].
    destruct (String.eqb_spec (mc_normalization c) "max_center") as [Q|]; [exfalso; apply Hn; rewrite Q; cbn; auto|]. reflexivity.
Qed.
Print Assumptions C92_rejections.

(** config/mnist.yaml: kernel 5, channels 6 and 16; and a network of the example with it. *)
Definition demo_mnist : mnist_cfg := mkMnistCfg "continuous2d" 3 2 (6, 16)%nat 5 false "max_abs" "linear".
Example C92_case : exists m h x, mnist_ok demo_mnist PiecewiseConv /\ mc_layer_type demo_mnist <> "fourier2d"%string /\ kernel_works demo_mnist /\ wf_heap [] /\
  new_mnist (fun _ _ => 1) demo_mnist (fun _ _ => 1) (fun _ _ => 1) [] = Ok (m, h) /\ mnist_network demo_mnist m h /\ retrained h h /\ shape x = [4; 1; 28; 28]%nat /\ at_ x [1; 0; 2; 3]%nat = 5.
Proof.
  assert (O : mnist_ok demo_mnist PiecewiseConv) by (constructor; cbn; auto 10; lia).
  assert (W : wf_heap []) by (intros i Hi; cbn in Hi; lia).
  destruct (C92_construction (fun _ _ => 1) demo_mnist PiecewiseConv (fun _ _ => 1) (fun _ _ => 1) [] O W) as (m & h & E & N).
  exists m, h, (mkT [4; 1; 28; 28]%nat (fun ix => INR (nth 2 ix 0%nat + nth 3 ix 0%nat))). split; [exact O|]. split; [discriminate|]. split; [cbn; auto|].
  split; [exact W|]. split; [exact E|]. split; [exact N|]. split; [apply retrained_refl|]. split; [reflexivity|]. cbn. lra.
Qed.
Definition demo_mnist_standard : mnist_cfg := mkMnistCfg "standard" 3 2 (6, 16)%nat 5 false "max_abs" "linear".
Example C92_standard_case : exists m h, mnist_standard_ok demo_mnist_standard /\ mc_double demo_mnist_standard = false /\ mc_kernel_size demo_mnist_standard <> 3%nat /\ mnist_network demo_mnist_standard m h.
Proof.
  assert (exists m h, new_mnist (fun _ _ => 1) demo_mnist_standard (fun _ _ => 1) (fun _ _ => 1) [] = Ok (m, h)) as (m & h & E) by (eexists _, _; reflexivity).
  exists m, h. split; [constructor; cbn; auto; lia|]. split; [reflexivity|]. split; [discriminate|].
  exists (fun _ _ => 1), (fun _ _ => 1), (fun _ _ => 1), [], h, m. split; [intros i Hi; cbn in Hi; lia|]. split; [exact E|]. split; [apply trained_mnist_refl|apply retrained_refl].
Qed.

(** ** examples/cifar10.py *)

Definition cifar_types : list string := ["continuous"; "piecewise"; "discontinuous"; "standard"]%string.
Definition trained_cifar (m m' : cifar_net) : Prop :=
  match ci_convs m, ci_convs m' with Some (a, b), Some (a', b') => trained_conv a a' /\ trained_conv b b' | None, None => True | _, _ => False end /\
  shape (ci_weight m') = shape (ci_weight m) /\ shape (ci_bias m') = shape (ci_bias m).
Definition cifar_network (n segments : nat) (layer_type : string) (m : cifar_net) : Prop :=
  exists u draw m0, new_cifar n segments layer_type u draw = Ok m0 /\ trained_cifar m0 m.
(** Rows (or columns) of the images after both convolutions and poolings. *)
Definition cifar_size (H : nat) : nat := (((H - 4) / 2 - 4) / 2)%nat.

Lemma kind_named t k : cifar_kind t = Some k -> k <> FourierConv /\ String.eqb t "standard" = false /\ exists name, In (name, (2%nat, k)) conv_class_names.
Proof.
  unfold cifar_kind. destruct (String.eqb_spec t "continuous") as [->|]; [|destruct (String.eqb_spec t "piecewise") as [->|]; [|destruct (String.eqb_spec t "discontinuous") as [->|]; [|discriminate]]].
  all: intros E; injection E as <-; split; [discriminate|]; split; [reflexivity|]; eexists; unfold conv_class_names; cbn [In]; eauto 10.
Qed.
Lemma cifar_conv_works k n s i o u draw l0 l H W : k <> FourierConv -> (exists name, In (name, (2%nat, k)) conv_class_names) -> (1 <= n)%nat -> (1 <= s)%nat -> (1 <= i)%nat -> (1 <= o)%nat ->
  cifar_conv k n s i o u draw = Ok l0 -> trained_conv l0 l ->
  ((5 <= H)%nat -> (5 <= W)%nat -> samplewise (any_conv_forward l) [i; H; W] [o; H - 4; W - 4]%nat) /\
  ((H < 5 \/ W < 5)%nat -> fails (any_conv_forward l) [i; H; W]) /\
  (l = l0 -> (5 <= H)%nat -> (5 <= W)%nat -> blind (any_conv_forward l) [i; H; W] [o; H - 4; W - 4]%nat).
Proof.
  intros NF (name & In_) Hn Hs Hi Ho E Tr. unfold cifar_conv, rmap in E. set (a := mkConvArgs n s i o 5 2 false None 1 1 0 1) in *.
  destruct (class2d k a u draw) as [l1|] eqn:E1; cbn [rbind] in E; [|discriminate]. injection E as <-. destruct l as [l|l]; cbn [trained_conv] in Tr; [contradiction|].
  assert (E2 : high_order_convolution_layers name a u draw = Ok l1) by (rewrite <- E1; apply (proj2 (conv_factory_class name 2 k In_) a u draw)).
  assert (G : good_args a) by (repeat split; cbn; auto; lia).
  assert (Fi : forall N, fits a N <-> (5 <= N)%nat) by (intros N; unfold fits, a; cbn [a_dilation a_kernel a_padding]; lia).
  assert (Ps : forall N, (5 <= N)%nat -> positions a N = (N - 4)%nat).
  { intros N L. unfold positions, a. cbn [a_dilation a_kernel a_padding a_stride]. rewrite Nat.div_1_r. lia. }
  cbn [any_conv_forward]. assert (Sw : (5 <= H)%nat -> (5 <= W)%nat -> samplewise (conv_layer_forward l) [i; H; W] [o; H - 4; W - 4]%nat).
  { intros LH LW. rewrite <- !Ps by assumption. change i with (a_in a) at 1. change o with (a_out a) at 1. apply (sw_conv name k a u draw l1 l H W); auto; now apply Fi. }
  split; [exact Sw|]. split.
  - intros L. change i with (a_in a). apply (fail_conv name k a u draw l1 l H W); auto. intros (F & F'). pose proof (proj1 (Fi H) F). pose proof (proj1 (Fi W) F'). lia.
  - intros Q LH LW. injection Q as ->. apply blind_teq; [auto|]. intros x x' B y y' Hx Hx' Ey Ey'.
    apply (fresh_layer name k a u draw l1 x x' B H W y y'); auto; try (now apply Fi). cbn. lra.
Qed.
Lemma standard_works l I O H W : shape (sc_weight l) = [O; I; 5; 5]%nat ->
  ((5 <= H)%nat -> (5 <= W)%nat -> samplewise (any_conv_forward (Standard l)) [I; H; W] [O; H - 4; W - 4]%nat) /\
  ((H < 5 \/ W < 5)%nat -> fails (any_conv_forward (Standard l)) [I; H; W]).
Proof.
  intros S. cbn [any_conv_forward]. split.
  - intros LH LW. replace (H - 4)%nat with (H - 5 + 1)%nat by lia. replace (W - 4)%nat with (W - 5 + 1)%nat by lia. apply sw_standard; auto; lia.
  - intros L. now apply (fail_standard l I O 5).
Qed.

Lemma cifar_parts n s t m : In t cifar_types -> (1 <= n)%nat -> (1 <= s)%nat -> cifar_network n s t m ->
  shape (ci_weight m) = [10; 400]%nat /\ exists mid conv1 conv2, ci_convs m = Some (conv1, conv2) /\
    forall H W, ((5 <= H)%nat -> (5 <= W)%nat -> samplewise (any_conv_forward conv1) [3; H; W]%nat [mid; H - 4; W - 4]%nat) /\
                ((H < 5 \/ W < 5)%nat -> fails (any_conv_forward conv1) [3; H; W]%nat) /\
                ((5 <= H)%nat -> (5 <= W)%nat -> samplewise (any_conv_forward conv2) [mid; H; W] [16; H - 4; W - 4]%nat) /\
                ((H < 5 \/ W < 5)%nat -> fails (any_conv_forward conv2) [mid; H; W]).
Proof.
  intros Ht Hn Hs (u & draw & m0 & E & Tr & Sw & _). unfold new_cifar in E. destruct (cifar_kind t) as [k|] eqn:Ek.
  - destruct (kind_named t k Ek) as (NF & _ & Nam). destruct (cifar_conv k n s 3 6 _ _) as [a1|] eqn:E1; cbn [rbind] in E; [|discriminate].
    destruct (cifar_conv k n s 6 16 _ _) as [a2|] eqn:E2; cbn [rbind] in E; [|discriminate]. injection E as <-. cbn [ci_convs ci_weight] in *.
    split; [exact Sw|]. destruct (ci_convs m) as [[b1 b2]|]; [|contradiction]. destruct Tr as (T1 & T2). exists 6%nat, b1, b2. split; [reflexivity|].
    intros H W. destruct (cifar_conv_works k n s 3 6 _ _ a1 b1 H W NF Nam Hn Hs ltac:(lia) ltac:(lia) E1 T1) as (P1 & P2 & _).
    destruct (cifar_conv_works k n s 6 16 _ _ a2 b2 H W NF Nam Hn Hs ltac:(lia) ltac:(lia) E2 T2) as (P3 & P4 & _). auto.
  - assert (Et : t = "standard"%string).
    { destruct Ht as [<-|[<-|[<-|[<-|[]]]]]; try discriminate Ek. reflexivity. }
    rewrite Et in E. cbn [String.eqb Ascii.eqb Bool.eqb] in E. cbn [rbind] in E. injection E as <-. cbn [ci_convs ci_weight] in *.
    split; [exact Sw|]. destruct (ci_convs m) as [[b1 b2]|]; [|contradiction]. destruct Tr as (T1 & T2). destruct b1 as [b1|]; [|contradiction]. destruct b2 as [b2|]; [|contradiction].
    cbn [trained_conv] in T1, T2. destruct T1 as (S1 & _), T2 as (S2 & _). cbn [new_standard_conv sc_weight shape] in S1, S2.
    eexists _, (Standard b1), (Standard b2). split; [reflexivity|]. intros H W. destruct (standard_works b1 _ _ H W S1) as (P1 & P2). destruct (standard_works b2 _ _ H W S2) as (P3 & P4). auto.
Qed.

Definition cifar_tail (t : string) (conv2 : any_conv) : tensor R -> res (tensor R) := fun x =>
  x <- max_pool2d (if String.eqb t "standard" then relu x else x) ;;
  x <- any_conv_forward conv2 x ;;
  max_pool2d (if String.eqb t "standard" then relu x else x).
Lemma cifar_chain t m conv1 conv2 x : ci_convs m = Some (conv1, conv2) ->
  cifar_forward t m x = (x <- (x <- any_conv_forward conv1 x ;; cifar_tail t conv2 x) ;; x <- view_infer [] [16 * 5 * 5]%nat x ;; Linear_forward (ci_weight m) (ci_bias m) x).
Proof.
  intros E. unfold cifar_forward, cifar_tail. rewrite E. cbn [attribute rbind].
  repeat (match goal with |- context [rbind (any_conv_forward ?c ?z) _] => destruct (any_conv_forward c z); cbn [rbind]; try reflexivity
                        | |- context [rbind (max_pool2d ?z) _] => destruct (max_pool2d z); cbn [rbind]; try reflexivity end).
Qed.
Lemma half_le a b : (2 * b <= a)%nat -> (b <= a / 2)%nat.
Proof. intros H. apply Nat.div_le_lower_bound; lia. Qed.
Lemma half_lt a b : (a < 2 * b)%nat -> (a / 2 < b)%nat.
Proof. intros H. apply Nat.div_lt_upper_bound; lia. Qed.
Lemma cifar_tail_ok t conv2 mid H W : (16 <= H)%nat -> (16 <= W)%nat ->
  (forall H W, (5 <= H)%nat -> (5 <= W)%nat -> samplewise (any_conv_forward conv2) [mid; H; W] [16; H - 4; W - 4]%nat) ->
  samplewise (cifar_tail t conv2) [mid; H - 4; W - 4]%nat [16; cifar_size H; cifar_size W]%nat.
Proof.
  intros HH HW C2. unfold cifar_tail, cifar_size. pose proof (half_le (H - 4) 6 ltac:(lia)). pose proof (half_le (W - 4) 6 ltac:(lia)).
  refine (sw_comp _ _ _ [mid; (H - 4) / 2; (W - 4) / 2]%nat _ _ _). { apply sw_pool_act; lia. }
  refine (sw_comp _ _ _ [16; (H - 4) / 2 - 4; (W - 4) / 2 - 4]%nat _ _ _). { apply C2; lia. }
  apply sw_pool_act; lia.
Qed.
Lemma sw_linear w bi I O : shape w = [O; I] -> samplewise (Linear_forward w bi) [I] [O].
Proof. intros Sw. apply sw_rowwise. apply (good_linear true w bi _ _ Sw). Qed.
Lemma sw_view s : (1 <= prodn s)%nat -> samplewise (view_infer [] [prodn s]) s [prodn s].
Proof.
  intros P x x' B B' b b' Hx Hx' Hb Hb' Eq.
  assert (V : forall (x : tensor R) B, shape x = B :: s -> exists y, view_infer [] [prodn s] x = Ok y /\ shape y = [B; prodn s] /\
     forall b r, (b < B)%nat -> (r < prodn s)%nat -> at_ y [b; r] = at_ x (b :: unravel s r)).
  { intros z n Hz. destruct (view_infer_ok z [] [prodn s] n) as (y & Ey & Sy & Vy); [cbn; lia|unfold numel; rewrite Hz; cbn; lia|].
    exists y. split; [exact Ey|]. split; [exact Sy|]. intros c r Hc Hr. apply Vy; rewrite Hz.
    - split; [exact Hc|now apply unravel_valid].
    - cbn [app ravel prodn]. rewrite ravel_unravel by exact Hr. lia. }
  destruct (V x B Hx) as (y & Ey & Sy & Vy), (V x' B' Hx') as (y' & Ey' & Sy' & Vy'). exists y, y'. repeat (split; [assumption|]).
  intros ix Hix. destruct ix as [|r [|? ?]]; cbn in Hix; try tauto. rewrite Vy, Vy' by tauto. apply Eq. now apply unravel_valid.
Qed.

Lemma cifar_samplewise n s t m : In t cifar_types -> (1 <= n)%nat -> (1 <= s)%nat -> cifar_network n s t m -> samplewise (cifar_forward t m) [3; 32; 32]%nat [10]%nat.
Proof.
  intros Ht Hn Hs N. destruct (cifar_parts n s t m Ht Hn Hs N) as (Sw & mid & c1 & c2 & Ec & P).
  eapply sw_ext; [intros x; apply (cifar_chain t m c1 c2 x Ec)|].
  refine (sw_comp _ _ _ [16; 5; 5]%nat _ _ _).
  - refine (sw_comp _ _ _ [mid; 28; 28]%nat _ _ _); [apply (P 32 32)%nat; lia|]. apply (cifar_tail_ok t c2 mid 32 32); try lia. intros H W. apply P.
  - refine (sw_comp _ _ _ [400]%nat _ _ _); [|exact (sw_linear _ _ _ _ Sw)]. apply (sw_view [16; 5; 5]%nat). cbn. lia.
Qed.

(** ** C94 *)

(** Ten logits for every image of 32 x 32 points; any other layer type builds a network that cannot be called. *)
Theorem C94_shape : forall n segments t m x B, (1 <= n)%nat -> (1 <= segments)%nat -> cifar_network n segments t m ->
  (In t cifar_types -> (1 <= B)%nat -> shape x = [B; 3; 32; 32]%nat -> exists y, cifar_forward t m x = Ok y /\ shape y = [B; 10]%nat) /\
  (~ In t cifar_types -> cifar_forward t m x = Err AttributeError).
Proof.
  intros n s t m x B Hn Hs N. split.
  - intros Ht HB Hx. exact (sw_total _ _ _ (cifar_samplewise n s t m Ht Hn Hs N) x B HB Hx).
  - intros Ht. destruct N as (u & draw & m0 & E & Tr & _). unfold new_cifar in E. assert (Ek : cifar_kind t = None).
    { unfold cifar_kind. destruct (String.eqb_spec t "continuous") as [->|]; [exfalso; apply Ht; cbn; auto|].
      destruct (String.eqb_spec t "piecewise") as [->|]; [exfalso; apply Ht; cbn; auto|]. destruct (String.eqb_spec t "discontinuous") as [->|]; [exfalso; apply Ht; cbn; auto|]. reflexivity. }
    rewrite Ek in E. destruct (String.eqb_spec t "standard") as [->|]; [exfalso; apply Ht; cbn; auto|]. cbn [rbind] in E. injection E as <-. cbn [ci_convs] in Tr.
    unfold cifar_forward. destruct (ci_convs m) as [[? ?]|]; [contradiction|reflexivity].
Qed.
Print Assumptions C94_shape.

(** A network is built for every layer type. *)
Theorem C94_construction : forall n segments t u draw, (1 <= n)%nat -> (1 <= segments)%nat ->
  exists m, new_cifar n segments t u draw = Ok m /\ cifar_network n segments t m.
Proof.
  intros n s t u draw Hn Hs.
  assert (Cv : forall k i o a b, cifar_kind t = Some k -> (1 <= i)%nat -> (1 <= o)%nat -> exists l, cifar_conv k n s i o a b = Ok l).
  { intros k i o a b Ek Hi Ho. destruct (kind_named t k Ek) as (_ & _ & name & In_). set (ar := mkConvArgs n s i o 5 2 false None 1 1 0 1).
    destruct (factory_ok name 2 k ar a b In_) as (l & El); [repeat split; cbn; auto; lia|]. rewrite (proj2 (conv_factory_class name 2 k In_) ar a b) in El. cbn [Nat.eqb] in El.
    exists (HighOrder l). unfold cifar_conv, rmap. fold ar. rewrite El. reflexivity. }
  assert (exists m, new_cifar n s t u draw = Ok m) as (m & E).
  { unfold new_cifar. destruct (cifar_kind t) as [k|] eqn:Ek.
    - destruct (Cv k 3 6 (u 0) (draw 0) eq_refl ltac:(lia) ltac:(lia))%nat as (l1 & ->). destruct (Cv k 6 16 (u 1) (draw 1) eq_refl ltac:(lia) ltac:(lia))%nat as (l2 & ->). cbn. eauto.
    - destruct (String.eqb t "standard"); cbn; eauto. }
  exists m. split; [exact E|]. exists u, draw, m. split; [exact E|]. split; [|auto]. destruct (ci_convs m) as [[a b]|]; auto using trained_conv_refl.
Qed.
Print Assumptions C94_construction.

(** The other images of the batch do not matter. *)
Theorem C94_samples_independent : forall n segments t m x x' B B' b b', (1 <= n)%nat -> (1 <= segments)%nat -> In t cifar_types -> cifar_network n segments t m ->
  shape x = [B; 3; 32; 32]%nat -> shape x' = [B'; 3; 32; 32]%nat -> (b < B)%nat -> (b' < B')%nat ->
  (forall c i j, (c < 3)%nat -> (i < 32)%nat -> (j < 32)%nat -> at_ x [b; c; i; j] = at_ x' [b'; c; i; j]) ->
  exists y y', cifar_forward t m x = Ok y /\ cifar_forward t m x' = Ok y' /\ forall o, (o < 10)%nat -> at_ y [b; o] = at_ y' [b'; o].
Proof.
  intros n s t m x x' B B' b b' Hn Hs Ht N Hx Hx' Hb Hb' H.
  destruct (cifar_samplewise n s t m Ht Hn Hs N x x' B B' b b' Hx Hx' Hb Hb') as (y & y' & Ey & Ey' & _ & _ & Q).
  - intros ix Hix. destruct ix as [|a [|i [|j [|? ?]]]]; cbn in Hix; try tauto. now apply H.
  - exists y, y'. repeat (split; [assumption|]). intros o Ho. apply Q. cbn. auto.
Qed.
Print Assumptions C94_samples_independent.

(** Freshly built, every type but "standard" gives all images the same logits. *)
Theorem C94_fresh : forall n segments t u draw m x x' B B' b b', (1 <= n)%nat -> (1 <= segments)%nat -> In t cifar_types -> t <> "standard"%string ->
  new_cifar n segments t u draw = Ok m -> shape x = [B; 3; 32; 32]%nat -> shape x' = [B'; 3; 32; 32]%nat -> (b < B)%nat -> (b' < B')%nat ->
  exists y y', cifar_forward t m x = Ok y /\ cifar_forward t m x' = Ok y' /\ forall o, (o < 10)%nat -> at_ y [b; o] = at_ y' [b'; o].
Proof.
  intros n s t u draw m x x' B B' b b' Hn Hs Ht Hst E Hx Hx' Hb Hb'.
  assert (N : cifar_network n s t m). { exists u, draw, m. split; [exact E|]. split; [|auto]. destruct (ci_convs m) as [[? ?]|]; auto using trained_conv_refl. }
  destruct (cifar_parts n s t m Ht Hn Hs N) as (Sw & mid & c1 & c2 & Ec & P).
  assert (L : blind (cifar_forward t m) [3; 32; 32]%nat [10]%nat).
  { eapply blind_ext; [intros z; apply (cifar_chain t m c1 c2 z Ec)|]. unfold new_cifar in E. destruct (cifar_kind t) as [k|] eqn:Ek.
    - destruct (kind_named t k Ek) as (NF & _ & Nam). destruct (cifar_conv k n s 3 6 _ _) as [a1|] eqn:E1; cbn [rbind] in E; [|discriminate].
      destruct (cifar_conv k n s 6 16 _ _) as [a2|] eqn:E2; cbn [rbind] in E; [|discriminate]. injection E as <-. cbn [ci_convs ci_weight ci_bias] in *. injection Ec as -> ->.
      refine (blind_comp _ _ _ [16; 5; 5]%nat _ _ _).
      + refine (blind_comp _ _ _ [6; 28; 28]%nat _ _ _).
        * apply (cifar_conv_works k n s 3 6 _ _ c1 c1 32 32 NF Nam Hn Hs ltac:(lia) ltac:(lia) E1 (trained_conv_refl _)); lia || reflexivity.
        * apply (cifar_tail_ok t c2 6 32 32); try lia. intros H W. apply (cifar_conv_works k n s 6 16 _ _ c2 c2 H W NF Nam Hn Hs ltac:(lia) ltac:(lia) E2 (trained_conv_refl _)).
      + refine (sw_comp _ _ _ [400]%nat _ _ _); [|exact (sw_linear _ _ _ _ Sw)]. apply (sw_view [16; 5; 5]%nat). cbn. lia.
    - exfalso. destruct Ht as [<-|[<-|[<-|[<-|[]]]]]; try discriminate Ek. now apply Hst. }
  destruct (L x x' B B' b b' Hx Hx' Hb Hb') as (y & y' & Ey & Ey' & _ & _ & Q). exists y, y'. repeat (split; [assumption|]). intros o Ho. apply Q. cbn. auto.
Qed.
Print Assumptions C94_fresh.

(** Images of another size: flattening does not keep the samples apart, so a batch gives B p q / 25 rows of logits if that is a
    number of rows, p x q being the size after the last pooling, and is rejected otherwise. *)
Theorem C94_other_sizes : forall n segments t m x B H W, (1 <= n)%nat -> (1 <= segments)%nat -> In t cifar_types -> cifar_network n segments t m ->
  (1 <= B)%nat -> shape x = [B; 3; H; W]%nat ->
  ((H < 16 \/ W < 16)%nat -> cifar_forward t m x = Err RuntimeError) /\
  ((16 <= H)%nat -> (16 <= W)%nat -> forall rows, (B * (cifar_size H * cifar_size W) = 25 * rows)%nat -> exists y, cifar_forward t m x = Ok y /\ shape y = [rows; 10]%nat) /\
  ((16 <= H)%nat -> (16 <= W)%nat -> (forall rows, (B * (cifar_size H * cifar_size W) <> 25 * rows)%nat) -> cifar_forward t m x = Err RuntimeError).
Proof.
  intros n s t m x B H W Hn Hs Ht N HB Hx. destruct (cifar_parts n s t m Ht Hn Hs N) as (Sw & mid & c1 & c2 & Ec & P).
  rewrite (cifar_chain t m c1 c2 x Ec). split; [|assert (Pre : (16 <= H)%nat -> (16 <= W)%nat -> exists y, (x <- any_conv_forward c1 x ;; cifar_tail t c2 x) = Ok y /\ shape y = [B; 16; cifar_size H; cifar_size W]%nat)].
  - intros Small. assert (F : fails (fun x => x <- any_conv_forward c1 x ;; cifar_tail t c2 x) [3; H; W]%nat); [|now rewrite (F x B HB Hx)].
    destruct (Nat.lt_ge_cases H 5) as [L|L1]; [apply fail_first; apply P; auto|]. destruct (Nat.lt_ge_cases W 5) as [L|L2]; [apply fail_first; apply P; auto|].
    refine (fail_second _ _ _ [mid; H - 4; W - 4]%nat _ _); [now apply P|]. unfold cifar_tail.
    destruct (Nat.lt_ge_cases (H - 4) 2) as [L|L3]; [apply fail_first; apply fail_pool_act; auto|]. destruct (Nat.lt_ge_cases (W - 4) 2) as [L|L4]; [apply fail_first; apply fail_pool_act; auto|].
    refine (fail_second _ _ _ [mid; (H - 4) / 2; (W - 4) / 2]%nat _ _); [now apply sw_pool_act|].
    destruct (Nat.lt_ge_cases ((H - 4) / 2) 5) as [L|L5]; [apply fail_first; apply P; auto|]. destruct (Nat.lt_ge_cases ((W - 4) / 2) 5) as [L|L6]; [apply fail_first; apply P; auto|].
    refine (fail_second _ _ _ [16; (H - 4) / 2 - 4; (W - 4) / 2 - 4]%nat _ _); [now apply P|]. apply fail_pool_act.
    destruct Small; [left|right]; match goal with |- ((?a - 4) / 2 - 4 < 2)%nat => pose proof (half_lt (a - 4) 6 ltac:(lia)); lia end.
  - intros LH LW. refine (sw_total _ _ _ (sw_comp _ _ _ [mid; H - 4; W - 4]%nat _ _ _) x B HB Hx); [apply P; lia|]. apply cifar_tail_ok; auto. intros H' W'. apply P.
  - split.
    + intros LH LW rows Er. destruct (Pre LH LW) as (y & -> & Sy). cbn [rbind].
      destruct (view_infer_ok y [] [16 * 5 * 5]%nat rows) as (z & Ez & Sz & _); [cbn; lia|unfold numel; rewrite Sy; cbn [prodn]; nia|]. rewrite Ez. cbn [rbind].
      unfold Linear_forward. rewrite Sw, Sz. cbn [rev app]. change (16 * 5 * 5)%nat with 400%nat. rewrite Nat.eqb_refl. eexists. split; reflexivity.
    + intros LH LW Nr. destruct (Pre LH LW) as (y & -> & Sy). cbn [rbind]. unfold view_infer, numel. rewrite Sy. cbn [prodn]. change (1 * (16 * 5 * 5 * 1))%nat with 400%nat.
      destruct (Nat.eqb_spec 400 0) as [Q|_]; [discriminate Q|]. destruct (Nat.eqb_spec ((B * (16 * (cifar_size H * (cifar_size W * 1)))) mod 400) 0) as [Q|_]; [|reflexivity].
      exfalso. apply Nat.mod_divides in Q; [|lia]. destruct Q as (r & Q). apply (Nr r). nia.
Qed.
Print Assumptions C94_other_sizes.

(** Images of 20 x 20 points give 2 x 2 features, so 25 of them give four rows of logits. *)
Example C94_case : exists m, cifar_network 3 2 "discontinuous" m /\ new_cifar 3 2 "discontinuous" (fun _ _ => 1) (fun _ _ => 1) = Ok m /\ In "discontinuous"%string cifar_types /\ cifar_size 20 = 2%nat /\ cifar_size 32 = 5%nat /\
  (25 * (cifar_size 20 * cifar_size 20) = 25 * 4)%nat /\ forall rows, (1 * (cifar_size 20 * cifar_size 20) <> 25 * rows)%nat.
Proof.
  destruct (C94_construction 3 2 "discontinuous" (fun _ _ => 1) (fun _ _ => 1)) as (m & E & N); try lia. exists m. repeat (split; [assumption || reflexivity || (cbn; auto)|]).
  intros rows. change (4 <> 25 * rows)%nat. lia.
Qed.
