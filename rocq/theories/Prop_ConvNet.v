(** * Fully convolutional and deconvolutional networks (C64-C67). *)
From Coq Require Import String Reals ZArith List Lia Lra Bool.
From Verif Require Import Spec Tensor Utils Convolution Layers Vae ConvNetworks Observe ObserveConv ObserveConvNet
  SumFacts TensorFacts ConvFacts ConvNetFacts Prop_Conv Prop_Factory.
Import ListNotations.
Local Open Scope R_scope.

(** ** C64: construction *)

(** ValueError only means fewer than two channels or an unknown layer type: lengths are never validated. *)
Theorem C64_lengths_never_checked : forall a pooling u draw, new_conv_net a pooling u draw = Err ValueError ->
  (length (cn_channels a) < 2)%nat \/
  exists i, (i < layers a)%nat /\ ~ In (layer_type_of a i) conv_names.
Proof.
  intros a pooling u draw E. unfold new_conv_net, cn_stages in E.
  destruct (cn_check a (length (cn_kernel_size a))) as [[]|e] eqn:Ec; cbn [rbind] in E.
  - right. destruct (collect _ 0 (length (cn_channels a) - 1)) as [|e] eqn:El; cbn [rbind] in E; [discriminate|].
    injection E as ->. apply collect_err in El. destruct El as (i & Hi & Ei). exists i. split; [exact Hi|]. cbn [Nat.add] in Ei.
    unfold cn_stage in Ei. destruct (cn_layer a _ i) as [(t, c)|e] eqn:Ea; cbn [rbind fst snd] in Ei.
    + assert (Et : t = layer_type_of a i).
      { unfold cn_layer in Ea. destruct (py_get (scalar_to_list (cn_layer_type a) _) i) as [t'|] eqn:Et; cbn [rbind] in Ea; [|discriminate].
        assert (t = t') as ->.
        { revert Ea. repeat (match goal with |- rbind ?m _ = _ -> _ => destruct m; cbn [rbind]; [|discriminate] end). congruence. }
        unfold layer_type_of. destruct (cn_layer_type a) as [[v|v]|]; cbn in *.
        - destruct (nth_error (repeat v _) i) as [x|] eqn:En; [|discriminate]. injection Et as <-. apply nth_error_In, repeat_spec in En. congruence.
        - destruct (nth_error v i) as [x|] eqn:En; [|discriminate]. injection Et as <-. symmetry. now apply nth_error_nth.
        - discriminate. }
      subst t. destruct (high_order_convolution_layers (layer_type_of a i) c (u i) (draw i)) as [l|e] eqn:Eh; cbn [rbind] in Ei.
      * destruct (cn_normalization a); [|discriminate]. unfold py_get in Ei. destruct nth_error; discriminate.
      * injection Ei as ->. now apply C42_conv in Eh.
    + exfalso. revert Ea. injection Ei as ->. unfold cn_layer.
      assert (P : forall A (v : option (list A)) j, py_get v j <> Err ValueError) by (intros A [v|] j; cbn; [destruct nth_error|]; congruence).
      do 6 (match goal with |- rbind (py_get ?v ?j) _ = _ -> _ => pose proof (P _ v j); destruct (py_get v j); cbn [rbind]; [|congruence] end).
      destruct (scalar_to_list (cn_stride a) _) as [st|]; cbn [rbind]; [|discriminate].
      pose proof (P _ (Some st) i). destruct (py_get (Some st) i); cbn [rbind]; congruence.
  - left. injection E as ->. unfold cn_check in Ec. destruct (Nat.ltb_spec (length (cn_channels a)) 2); [auto|]. exfalso. revert Ec.
    unfold lengths_differ, channels_differ, is_False, py_len.
    destruct (scalar_to_list (cn_segments a) _); cbn [rbind]; [|discriminate].
    destruct (negb _); cbn [rbind].
    + destruct (scalar_to_list (cn_n a) _); cbn [rbind]; [|discriminate]. rewrite andb_false_r. discriminate.
    + destruct (scalar_to_list (cn_layer_type a) _); cbn [rbind]; [|discriminate]. destruct (negb _); cbn [rbind].
      * destruct (scalar_to_list (cn_n a) _); cbn [rbind]; [|discriminate]. rewrite andb_false_r. discriminate.
      * destruct (scalar_to_list (cn_n a) _); cbn [rbind]; [|discriminate]. destruct (negb _); cbn [rbind]; rewrite andb_false_r; discriminate.
Qed.
Print Assumptions C64_lengths_never_checked.

(** Networks whose layers have the same arguments are the same: entries beyond the last layer are ignored, a scalar stands for
    a list that repeats it, no stride for stride 1. *)
Theorem C64_extra_entries_ignored : forall d a a' pooling u draw, net_ok d a -> net_ok d a' ->
  cn_channels a = cn_channels a' -> cn_normalization a = cn_normalization a' ->
  (forall i, (i < layers a)%nat -> layer_args a i = layer_args a' i /\ layer_type_of a i = layer_type_of a' i) ->
  exists m, new_conv_net a pooling u draw = Ok m /\ new_conv_net a' pooling u draw = Ok m.
Proof.
  intros d a a' pooling u draw N N' C Nm H.
  assert (Fac : forall b, net_ok d b -> forall i, (i < layers b)%nat ->
     exists l, high_order_convolution_layers (layer_type_of b i) (layer_args b i) (u i) (draw i) = Ok l).
  { intros b (_ & G) i Hi. destruct (G i Hi) as (Gi & k & T). now apply (factory_ok _ d k). }
  unfold new_conv_net.
  destruct (cn_stages_ok d a _ (fun i t c => high_order_convolution_layers t c (u i) (draw i)) N (le_n _) (Fac a N)) as (s & E & L & V).
  destruct (cn_stages_ok d a' _ (fun i t c => high_order_convolution_layers t c (u i) (draw i)) N' (le_n _) (Fac a' N')) as (s' & E' & L' & V').
  rewrite E, E'. cbn [rbind]. exists (mkConvNet s pooling (cn_channels a)). split; [reflexivity|]. rewrite C. do 2 f_equal.
  assert (LL : layers a = layers a') by (unfold layers; congruence).
  apply nth_ext with (mkStage (Layer1d (mkConv PolynomialConv 0 0 0 0 0 0 0 0 0 None 0 (mkT [] (fun _ => 0)))) None)
    (mkStage (Layer1d (mkConv PolynomialConv 0 0 0 0 0 0 0 0 0 None 0 (mkT [] (fun _ => 0)))) None); [congruence|].
  intros i Hi. rewrite L' in Hi. rewrite <- LL in Hi.
  destruct (nth_error s i) as [x|] eqn:Ex; [|apply nth_error_None in Ex; lia].
  destruct (nth_error s' i) as [x'|] eqn:Ex'; [|apply nth_error_None in Ex'; lia].
  rewrite (nth_error_nth _ _ _ Ex), (nth_error_nth _ _ _ Ex').
  destruct (V i x Ex) as (M & Q), (V' i x' Ex') as (M' & Q'). destruct (H i Hi) as (Ha & Ht). rewrite <- Ha, <- Ht in M'.
  unfold channel in *. rewrite C, Nm in Q. destruct x, x'. cbn in *. congruence.
Qed.
Print Assumptions C64_extra_entries_ignored.

(** A list that is too short is only noticed when its missing entry is read. *)
Definition missing {A} (v : option (listed A)) (size i : nat) : Prop :=
  match v with Some (Listed l) => (length l <= i)%nat | Some (Scalar _) => (size <= i)%nat | None => False end.
Theorem C64_short_lists : forall d a pooling u draw i, (2 <= length (cn_channels a))%nat ->
  cn_layer_type a <> None -> cn_n a <> None -> cn_segments a <> None -> (i < layers a)%nat ->
  (forall j, (j < i)%nat -> good_args (layer_args a j) /\ exists k, In (layer_type_of a j, (d, k)) conv_class_names) ->
  (length (cn_kernel_size a) <= i)%nat \/ missing (cn_layer_type a) (length (cn_kernel_size a)) i \/
    missing (cn_n a) (length (cn_kernel_size a)) i \/ missing (cn_segments a) (length (cn_kernel_size a)) i \/
    missing (cn_stride a) (length (cn_kernel_size a)) i ->
  new_conv_net a pooling u draw = Err IndexError.
Proof.
  intros d a pooling u draw i C T N S Hi Prev Miss. unfold new_conv_net, cn_stages. rewrite cn_check_ok by auto. cbn [rbind].
  set (make := fun i t c => high_order_convolution_layers t c (u i) (draw i)). set (size := length (cn_kernel_size a)) in *.
  assert (Bad : cn_stage a size make i = Err IndexError).
  { unfold cn_stage. assert (cn_layer a size i = Err IndexError) as ->; [|reflexivity]. unfold cn_layer.
    assert (P : forall A (v : option (listed A)), v <> None -> (exists x, py_get (scalar_to_list v size) i = Ok x /\ ~ missing v size i) \/ py_get (scalar_to_list v size) i = Err IndexError).
    { intros A [[x|l]|] Nv; cbn; try contradiction.
      - destruct (nth_error (repeat x size) i) eqn:En; [left|right; reflexivity]. eexists. split; [reflexivity|].
        pose proof (nth_error_Some (repeat x size) i) as Q. rewrite repeat_length in Q. assert (i < size)%nat by (apply Q; congruence). lia.
      - destruct (nth_error l i) eqn:En; [left|right; reflexivity]. eexists. split; [reflexivity|].
        assert (i < length l)%nat by (apply nth_error_Some; congruence). lia. }
    destruct (P _ _ T) as [(x1 & -> & M1)| ->]; cbn [rbind]; [|reflexivity].
    destruct (P _ _ N) as [(x2 & -> & M2)| ->]; cbn [rbind]; [|reflexivity].
    unfold layers in Hi.
    destruct (nth_error (cn_channels a) i) as [c|] eqn:Ec; [|apply nth_error_None in Ec; lia].
    destruct (nth_error (cn_channels a) (i + 1)) as [c'|] eqn:Ec'; [|apply nth_error_None in Ec'; lia].
    cbn [py_get]. rewrite Ec. cbn [rbind]. rewrite Ec'. cbn [rbind].
    destruct (nth_error (cn_kernel_size a) i) as [k|] eqn:Ek; cbn [rbind]; [|reflexivity].
    assert (i < size)%nat by (apply nth_error_Some; congruence).
    destruct (P _ _ S) as [(x3 & -> & M3)| ->]; cbn [rbind]; [|reflexivity].
    destruct Miss as [?|[?|[?|[?|M]]]]; try contradiction; [lia|].
    destruct (cn_stride a) as [[s|l]|]; cbn in M |- *; [lia| |contradiction].
    destruct (nth_error l i) eqn:En; [|reflexivity]. assert (i < length l)%nat by (apply nth_error_Some; congruence). lia. }
  assert (Good : forall j, (j < i)%nat -> exists s, cn_stage a size make j = Ok s).
  { intros j Hj. destruct (Prev j Hj) as (G & k & Tk). unfold cn_stage.
    rewrite (cn_layer_ok a size j (le_n _) G (class_nonempty _ _ Tk)). cbn [rbind fst snd].
    destruct (factory_ok _ d k _ (u j) (draw j) Tk G) as (l & El). unfold make. rewrite El. cbn [rbind].
    destruct (cn_normalization a); [|eauto]. destruct G as (_ & _ & _ & G4 & _). cbn in G4. rewrite (proj1 (get_nth _ _ G4)). cbn. eauto. }
  fold (layers a). revert Hi Bad Good. generalize (cn_stage a size make). generalize (layers a). clear. intros n body Hi Bad Good.
  assert (Main : forall n k, (k <= i)%nat -> (i < k + n)%nat -> collect body k n = Err IndexError).
  { clear n Hi. induction n as [|n IH]; intros k Hk Hn; [lia|]. cbn. destruct (Nat.eq_dec k i) as [->|].
    - now rewrite Bad.
    - destruct (Good k ltac:(lia)) as (s & ->). cbn [rbind]. rewrite IH by lia. reflexivity. }
  rewrite Main by lia. reflexivity.
Qed.
Print Assumptions C64_short_lists.

(** A two-layer network with scalars and one list that is longer than needed. *)
Definition demo_net : cn_args := mkCN (Some (Scalar "continuous2d"%string)) (Some (Listed [3; 2; 7]%nat)) [2; 4; 3]%nat (Some (Scalar 2%nat)) [3; 2]%nat
  false None None (Some (Scalar 1%nat)) 0.
Lemma demo_net_ok : net_ok 2 demo_net.
Proof.
  split; [cbn; lia|]. intros i Hi. cbn in Hi. split.
  - unfold good_args. destruct i as [|[|i]]; cbn; lia.
  - exists PiecewiseConv. cbn. auto.
Qed.
Example C64_case : net_ok 2 demo_net /\ layers demo_net = 2%nat /\ (forall W, (4 <= W)%nat -> net_fits demo_net W) /\ width demo_net 2 7 = 4%nat.
Proof.
  split; [exact demo_net_ok|]. split; [reflexivity|]. split; [|reflexivity]. intros W HW i Hi. unfold fits.
  destruct i as [|[|i]]; cbn in Hi; try lia; cbn - [Nat.div Nat.mul]; [lia|].
  unfold positions. cbn - [Nat.div Nat.mul]. rewrite Nat.div_1_r. lia.
Qed.

(** ** C65: shapes and pooling *)

(** The mean over all positions of an array with sizes [sp]. *)
Fixpoint mean (sp : list nat) (f : index -> R) : R :=
  match sp with
  | [] => f []
  | W :: sp => rsum W (fun i => mean sp (fun ix => f (i :: ix))) / INR W
  end.

Lemma mean_ext sp : forall f g, (forall ix, valid sp ix -> f ix = g ix) -> mean sp f = mean sp g.
Proof.
  induction sp as [|W sp IH]; intros f g E; cbn; [apply E; exact I|]. f_equal. apply rsum_ext. intros i Hi. apply IH. intros ix Hix. apply E. cbn. auto.
Qed.
Lemma mean_flat sp : (1 <= prodn sp)%nat -> forall f, rsum (prodn sp) (fun m => f (unravel sp m)) / INR (prodn sp) = mean sp f.
Proof.
  induction sp as [|W sp IH]; intros P f; [cbn; lra|]. cbn [prodn mean] in *. assert (PW : (1 <= W)%nat) by nia. assert (PP : (1 <= prodn sp)%nat) by nia.
  rewrite rsum_mul.
  rewrite (rsum_ext W _ (fun i => INR (prodn sp) * mean sp (fun ix => f (i :: ix)))).
  - rewrite rsum_scal, mult_INR. field. split; apply not_0_INR; lia.
  - intros i Hi. rewrite <- (IH PP).
    rewrite (rsum_ext _ _ (fun j => f (i :: unravel sp j))).
    + field. apply not_0_INR. lia.
    + intros j Hj. cbn [unravel]. now rewrite div_add_l, mod_add_l by auto.
Qed.

Lemma pool_ok d x lead tail : shape x = lead ++ tail -> length tail = d -> (length lead = 1 \/ length lead = 2)%nat -> (1 <= prodn tail)%nat ->
  exists y, adaptive_avg_pool d x = Ok y /\ shape y = lead ++ repeat 1%nat d /\
    forall ix jx, length ix = length lead -> at_ y (ix ++ jx) = mean tail (fun kx => at_ x (ix ++ kx)).
Proof.
  intros Hx Lt Ll P. unfold adaptive_avg_pool. rewrite Hx, app_length, Lt.
  replace (length lead + d - d)%nat with (length lead) by lia.
  rewrite firstn_app, firstn_all, Nat.sub_diag, firstn_O, app_nil_r.
  rewrite skipn_app, skipn_all, Nat.sub_diag, skipn_O. cbn [app].
  assert ((Nat.eqb (length lead + d) (d + 1) || Nat.eqb (length lead + d) (d + 2))%bool = true) as ->.
  { apply orb_true_iff. rewrite !Nat.eqb_eq. lia. }
  destruct (Nat.eqb_spec (prodn tail) 0); [lia|]. eexists. split; [reflexivity|]. split; [reflexivity|].
  intros ix jx Li. cbn [at_]. rewrite firstn_app, Li, Nat.sub_diag, firstn_O, app_nil_r.
  rewrite <- Li, firstn_all. now apply (mean_flat tail P (fun kx => at_ x (ix ++ kx))).
Qed.
Lemma pool_bad d x : (length (shape x) <> d + 1)%nat -> (length (shape x) <> d + 2)%nat -> adaptive_avg_pool d x = Err RuntimeError.
Proof.
  intros H1 H2. unfold adaptive_avg_pool.
  destruct (Nat.eqb_spec (length (shape x)) (d + 1)), (Nat.eqb_spec (length (shape x)) (d + 2)); try contradiction; reflexivity.
Qed.

Lemma flatten1_ok x B s : shape x = B :: s -> s <> [] ->
  exists y, flatten1 x = Ok y /\ shape y = [B; prodn s] /\
    forall b ix, (b < B)%nat -> valid s ix -> at_ y [b; ravel s ix] = at_ x (b :: ix).
Proof.
  intros Hx Ns. unfold flatten1. rewrite Hx. destruct s as [|c s]; [contradiction|].
  unfold reshape, numel. rewrite Hx.
  replace (prodn [B; prodn (c :: s)]) with (prodn (B :: c :: s)) by (cbn [prodn]; ring). rewrite Nat.eqb_refl.
  eexists. split; [reflexivity|]. split; [reflexivity|]. intros b ix Hb Hix. cbn [at_].
  assert (E : ravel [B; prodn (c :: s)] [b; ravel (c :: s) ix] = ravel (B :: c :: s) (b :: ix)) by (cbn [ravel prodn]; ring).
  rewrite E, unravel_ravel; [reflexivity|]. cbn [valid]. auto.
Qed.

Lemma prodn_ones d : prodn (repeat 1%nat d) = 1%nat.
Proof. induction d; cbn; lia. Qed.
Lemma ravel_ones d : ravel (repeat 1%nat d) (repeat 0%nat d) = 0%nat.
Proof. induction d; cbn; lia. Qed.
Lemma valid_ones d : valid (repeat 1%nat d) (repeat 0%nat d).
Proof. induction d; cbn; auto. Qed.
Lemma prodn_width a i sp : (forall W, In W sp -> (1 <= W)%nat) -> (1 <= prodn (map (width a i) sp))%nat.
Proof.
  induction sp as [|W sp IH]; intros H; cbn; [lia|]. pose proof (width_pos a i W (H W (or_introl eq_refl))).
  specialize (IH (fun W HW => H W (or_intror HW))). nia.
Qed.

(** With pooling for the right number of dimensions the network returns, for every sample and output channel, the mean of the
    last feature map; the number of columns is output_size. *)
Theorem C65_global_average : forall d a m x B sp, net_ok d a -> held_stages a (fc_stages m) -> fc_channels m = cn_channels a ->
  fc_pooling m = (if Nat.eqb d 1 then "1d" else "2d")%string ->
  shape x = B :: channel a 0 :: sp -> length sp = d -> (forall W, In W sp -> (1 <= W)%nat /\ net_fits a W) ->
  exists ys y, activations (fc_stages m) x ys /\
    shape (ys (layers a)) = B :: output_size m :: map (width a (layers a)) sp /\
    conv_net_forward m x = Ok y /\ shape y = [B; output_size m] /\
    forall b c, (b < B)%nat -> (c < output_size m)%nat ->
      at_ y [b; c] = mean (map (width a (layers a)) sp) (fun ix => at_ (ys (layers a)) (b :: c :: ix)).
Proof.
  intros d a m x B sp N Hh Hc Hp Hx Ls F.
  destruct (activations_exist d a (fc_stages m) x B sp N Hh Hx Ls (fun W HW => proj2 (F W HW))) as (ys & Act & Sh).
  destruct (held_stage d a _ N Hh) as (Len & _).
  assert (Out : output_size m = channel a (layers a)).
  { unfold output_size, channel, layers. rewrite Hc. destruct N as (C & _). destruct (cn_channels a) as [|c l] using rev_ind; [cbn in C; lia|].
    rewrite last_last, app_length. cbn [length]. replace (length l + 1 - 1)%nat with (length l) by lia. now rewrite nth_middle. }
  specialize (Sh (layers a) (le_n _)). rewrite <- Out in Sh. exists ys.
  set (z := ys (layers a)) in *. set (q := map (width a (layers a)) sp) in *.
  assert (Pq : (1 <= prodn q)%nat) by (apply prodn_width; intros W HW; apply F; auto).
  assert (Lq : length q = d) by (unfold q; now rewrite map_length).
  assert (D : d = 1%nat \/ d = 2%nat). { destruct N as (C & G). destruct (G 0%nat) as (_ & k & T); [unfold layers; lia|]. apply conv_factory_class in T. tauto. }
  assert (Pd : pool_dims (fc_pooling m) = Some d) by (rewrite Hp; destruct D as [-> | ->]; reflexivity).
  destruct (pool_ok d z [B; output_size m] q Sh Lq (or_intror eq_refl) Pq) as (p & Ep & Sp & Vp).
  destruct (flatten1_ok p B (output_size m :: repeat 1%nat d) Sp) as (y & Ey & Sy & Vy); [discriminate|].
  cbn [prodn] in Sy. rewrite prodn_ones, Nat.mul_1_r in Sy.
  exists y. split; [exact Act|]. split; [exact Sh|]. split.
  { unfold conv_net_forward. rewrite (activations_run _ _ _ Act), Len. cbn [rbind]. rewrite Pd. fold z. rewrite Ep. exact Ey. }
  split; [exact Sy|]. intros b c Hb Hc'.
  specialize (Vy b (c :: repeat 0%nat d) Hb). cbn [ravel] in Vy. rewrite prodn_ones, ravel_ones, Nat.mul_1_r, Nat.add_0_r in Vy.
  rewrite Vy by (split; [exact Hc'|apply valid_ones]). exact (Vp [b; c] (repeat 0%nat d) eq_refl).
Qed.
Print Assumptions C65_global_average.

(** Pooling over one dimension too many (the default "2d" on a network of 1d layers, "3d" on one of 2d layers) averages over the
    channels as well: the output has one column, not output_size. *)
Theorem C65_pooling_too_wide : forall d a m x B sp, net_ok d a -> held_stages a (fc_stages m) ->
  fc_pooling m = (if Nat.eqb d 1 then "2d" else "3d")%string ->
  shape x = B :: channel a 0 :: sp -> length sp = d -> (forall W, In W sp -> (1 <= W)%nat /\ net_fits a W) ->
  exists ys y, activations (fc_stages m) x ys /\ conv_net_forward m x = Ok y /\ shape y = [B; 1%nat] /\
    forall b, (b < B)%nat ->
      at_ y [b; 0%nat] = mean (channel a (layers a) :: map (width a (layers a)) sp) (fun ix => at_ (ys (layers a)) (b :: ix)).
Proof.
  intros d a m x B sp N Hh Hp Hx Ls F.
  destruct (activations_exist d a (fc_stages m) x B sp N Hh Hx Ls (fun W HW => proj2 (F W HW))) as (ys & Act & Sh).
  destruct (held_stage d a _ N Hh) as (Len & _). specialize (Sh (layers a) (le_n _)). exists ys.
  set (z := ys (layers a)) in *. set (q := map (width a (layers a)) sp) in *.
  assert (Pq : (1 <= prodn q)%nat) by (apply prodn_width; intros W HW; apply F; auto).
  assert (Lq : length q = d) by (unfold q; now rewrite map_length).
  assert (D : d = 1%nat \/ d = 2%nat). { destruct N as (C & G). destruct (G 0%nat) as (_ & k & T); [unfold layers; lia|]. apply conv_factory_class in T. tauto. }
  assert (Ch : (1 <= channel a (layers a))%nat).
  { destruct N as (C & G). destruct (G (layers a - 1)%nat) as ((_ & _ & _ & G4 & _) & _); [unfold layers; lia|]. cbn in G4.
    replace (layers a - 1 + 1)%nat with (layers a) in G4 by (unfold layers; lia). exact G4. }
  assert (Pd : pool_dims (fc_pooling m) = Some (S d)) by (rewrite Hp; destruct D as [-> | ->]; reflexivity).
  destruct (pool_ok (S d) z [B] (channel a (layers a) :: q) Sh) as (p & Ep & Sp & Vp); [cbn; lia|auto|cbn [prodn]; nia|].
  destruct (flatten1_ok p B (repeat 1%nat (S d)) Sp) as (y & Ey & Sy & Vy); [discriminate|].
  rewrite prodn_ones in Sy.
  exists y. split; [exact Act|]. split.
  { unfold conv_net_forward. rewrite (activations_run _ _ _ Act), Len. cbn [rbind]. rewrite Pd. fold z. rewrite Ep. exact Ey. }
  split; [exact Sy|]. intros b Hb. specialize (Vy b (repeat 0%nat (S d)) Hb (valid_ones (S d))). rewrite ravel_ones in Vy. rewrite Vy.
  exact (Vp [b] (repeat 0%nat (S d)) eq_refl).
Qed.
Print Assumptions C65_pooling_too_wide.

(** Pooling that fits neither: "1d" on a 2d network, "3d" on a 1d network. *)
Theorem C65_pooling_wrong : forall d a m x B sp, net_ok d a -> held_stages a (fc_stages m) ->
  fc_pooling m = (if Nat.eqb d 1 then "3d" else "1d")%string ->
  shape x = B :: channel a 0 :: sp -> length sp = d -> (forall W, In W sp -> (1 <= W)%nat /\ net_fits a W) ->
  conv_net_forward m x = Err RuntimeError.
Proof.
  intros d a m x B sp N Hh Hp Hx Ls F.
  destruct (activations_exist d a (fc_stages m) x B sp N Hh Hx Ls (fun W HW => proj2 (F W HW))) as (ys & Act & Sh).
  destruct (held_stage d a _ N Hh) as (Len & _). specialize (Sh (layers a) (le_n _)).
  assert (D : d = 1%nat \/ d = 2%nat). { destruct N as (C & G). destruct (G 0%nat) as (_ & k & T); [unfold layers; lia|]. apply conv_factory_class in T. tauto. }
  assert (L : length (shape (ys (layers a))) = (d + 2)%nat) by (rewrite Sh; cbn [length]; rewrite map_length; lia).
  unfold conv_net_forward. rewrite (activations_run _ _ _ Act), Len. cbn [rbind]. rewrite Hp.
  destruct D as [-> | ->]; cbn [Nat.eqb]; [change (pool_dims "3d") with (Some 3%nat)|change (pool_dims "1d") with (Some 1%nat)];
    cbv iota beta; rewrite pool_bad by lia; reflexivity.
Qed.
Print Assumptions C65_pooling_wrong.

(** Any other value of pooling: the whole last feature map, flattened. *)
Theorem C65_no_pooling : forall d a m x B sp, net_ok d a -> held_stages a (fc_stages m) ->
  ~ In (fc_pooling m) ["1d"; "2d"; "3d"]%string ->
  shape x = B :: channel a 0 :: sp -> length sp = d -> (forall W, In W sp -> net_fits a W) ->
  exists ys y, activations (fc_stages m) x ys /\ conv_net_forward m x = Ok y /\
    shape y = [B; prodn (channel a (layers a) :: map (width a (layers a)) sp)] /\
    forall b ix, (b < B)%nat -> valid (channel a (layers a) :: map (width a (layers a)) sp) ix ->
      at_ y [b; ravel (channel a (layers a) :: map (width a (layers a)) sp) ix] = at_ (ys (layers a)) (b :: ix).
Proof.
  intros d a m x B sp N Hh Hp Hx Ls F.
  destruct (activations_exist d a (fc_stages m) x B sp N Hh Hx Ls F) as (ys & Act & Sh).
  destruct (held_stage d a _ N Hh) as (Len & _). specialize (Sh (layers a) (le_n _)).
  destruct (flatten1_ok _ B _ Sh) as (y & Ey & Sy & Vy); [discriminate|].
  exists ys, y. split; [exact Act|]. split; [|split; [exact Sy|exact Vy]].
  unfold conv_net_forward. rewrite (activations_run _ _ _ Act), Len. cbn [rbind].
  assert (pool_dims (fc_pooling m) = None) as ->.
  { unfold pool_dims. cbn in Hp. destruct (String.eqb_spec (fc_pooling m) "1d"), (String.eqb_spec (fc_pooling m) "2d"), (String.eqb_spec (fc_pooling m) "3d");
      auto; exfalso; apply Hp; rewrite e; auto. }
  exact Ey.
Qed.
Print Assumptions C65_no_pooling.

Lemma no_normalization d a i f : cn_normalization a = None -> cn_normalization a = Some f -> keeps_shape (d + 2) (channel a (i + 1)) (f (channel a (i + 1))).
Proof. congruence. Qed.

(** The same network built of 1d layers.  With the default pooling "2d" its output has one column although output_size is 3. *)
Definition demo_net1 : cn_args := mkCN (Some (Scalar "continuous1d"%string)) (Some (Listed [3; 2; 7]%nat)) [2; 4; 3]%nat (Some (Scalar 2%nat)) [3; 2]%nat
  false None None None 0.
Theorem C65_default_pooling_refuted : exists a m x y, net_ok 1 a /\ new_conv_net a "2d" (fun _ _ => 0) (fun _ _ => 0) = Ok m /\
  shape x = [5; channel a 0; 9]%nat /\ net_fits a 9 /\ conv_net_forward m x = Ok y /\ shape y = [5; 1]%nat /\ output_size m = 3%nat.
Proof.
  assert (N : net_ok 1 demo_net1).
  { split; [cbn; lia|]. intros i Hi. cbn in Hi. split; [unfold good_args; destruct i as [|[|i]]; cbn; lia|]. exists PiecewiseConv. cbn. auto. }
  assert (F : net_fits demo_net1 9) by (intros i Hi; unfold fits; destruct i as [|[|i]]; cbn in *; lia).
  destruct (new_net_built 1 demo_net1 "2d" (fun _ _ => 0) (fun _ _ => 0) N) as (m & Em & Bm & Pm & Cm).
  assert (Hm : held_stages demo_net1 (fc_stages m)) by (apply (built_held 1); auto; intros; now apply no_normalization).
  destruct (C65_pooling_too_wide 1 demo_net1 m (mkT [5; 2; 9]%nat (fun _ => 1/2)) 5 [9%nat] N Hm Pm eq_refl eq_refl) as (ys & y & _ & Ey & Sy & _).
  { intros W [<-|[]]. split; [lia|exact F]. }
  exists demo_net1, m, (mkT [5; 2; 9]%nat (fun _ => 1/2)), y. split; [exact N|]. split; [exact Em|]. split; [reflexivity|].
  split; [exact F|]. split; [exact Ey|]. split; [exact Sy|]. unfold output_size. now rewrite Cm.
Qed.
Print Assumptions C65_default_pooling_refuted.

Example C65_case : exists m y, new_conv_net demo_net "2d" (fun _ _ => 0) (fun _ _ => 1) = Ok m /\ held_stages demo_net (fc_stages m) /\
  conv_net_forward m (mkT [5; 2; 7; 8]%nat (fun _ => 1/2)) = Ok y /\ shape y = [5; 3]%nat.
Proof.
  destruct (new_net_built 2 demo_net "2d" (fun _ _ => 0) (fun _ _ => 1) demo_net_ok) as (m & Em & Bm & Pm & Cm).
  assert (Hm : held_stages demo_net (fc_stages m)) by (apply (built_held 2); auto using demo_net_ok; intros; now apply no_normalization).
  destruct (C65_global_average 2 demo_net m (mkT [5; 2; 7; 8]%nat (fun _ => 1/2)) 5 [7; 8]%nat demo_net_ok Hm Cm Pm eq_refl eq_refl) as (ys & y & _ & _ & Ey & Sy & _).
  { destruct C64_case as (_ & _ & F & _). intros W [<-|[<-|[]]]; (split; [lia|apply F; lia]). }
  exists m, y. split; [exact Em|]. split; [exact Hm|]. split; [exact Ey|]. rewrite Sy. unfold output_size. now rewrite Cm.
Qed.

(** ** C66: samples and fresh networks *)

(** A module that treats every sample on its own (as normalisations do in eval mode). *)
Definition samplewise (f : tensor R -> res (tensor R)) : Prop := forall x x' y y' B B' s b b',
  shape x = B :: s -> shape x' = B' :: s -> (b < B)%nat -> (b' < B')%nat ->
  (forall ix, valid s ix -> at_ x (b :: ix) = at_ x' (b' :: ix)) -> f x = Ok y -> f x' = Ok y' ->
  forall ix, valid s ix -> at_ y (b :: ix) = at_ y' (b' :: ix).

(** The output for one sample depends on that sample only. *)
Theorem C66_samples_independent : forall d a m x x' B B' sp b b', net_ok d a -> held_stages a (fc_stages m) -> fc_channels m = cn_channels a ->
  fc_pooling m = (if Nat.eqb d 1 then "1d" else "2d")%string ->
  (forall s f, In s (fc_stages m) -> st_normal s = Some f -> samplewise f) ->
  shape x = B :: channel a 0 :: sp -> shape x' = B' :: channel a 0 :: sp -> length sp = d ->
  (forall W, In W sp -> (1 <= W)%nat /\ net_fits a W) -> (b < B)%nat -> (b' < B')%nat ->
  (forall ix, valid (channel a 0 :: sp) ix -> at_ x (b :: ix) = at_ x' (b' :: ix)) ->
  exists y y', conv_net_forward m x = Ok y /\ conv_net_forward m x' = Ok y' /\
    forall c, (c < output_size m)%nat -> at_ y [b; c] = at_ y' [b'; c].
Proof.
  intros d a m x x' B B' sp b b' N Hh Hc Hp Sw Hx Hx' Ls F Hb Hb' Eq.
  destruct (C65_global_average d a m x B sp N Hh Hc Hp Hx Ls F) as (ys & y & Act & Sh & Ey & Sy & Vy).
  destruct (C65_global_average d a m x' B' sp N Hh Hc Hp Hx' Ls F) as (ys' & y' & Act' & Sh' & Ey' & Sy' & Vy').
  exists y, y'. split; [exact Ey|]. split; [exact Ey'|]. intros c Hcc. rewrite Vy, Vy' by auto.
  assert (Main : forall i, (i <= layers a)%nat -> same_sample (ys i) (ys' i) b b' (channel a i :: map (width a i) sp)).
  { destruct (activations_exist d a (fc_stages m) x B sp N Hh Hx Ls (fun W HW => proj2 (F W HW))) as (zs & Act1 & Sz).
    destruct (activations_exist d a (fc_stages m) x' B' sp N Hh Hx' Ls (fun W HW => proj2 (F W HW))) as (zs' & Act1' & Sz').
    destruct (held_stage d a _ N Hh) as (Len & Hs). pose proof N as (C & G).
    induction i as [|i IH]; intros Hi.
    - destruct Act as (-> & _), Act' as (-> & _). cbn [width]. rewrite map_id. exact Eq.
    - specialize (IH ltac:(lia)). destruct (nth_error (fc_stages m) i) as [s|] eqn:Es; [|apply nth_error_None in Es; lia].
      pose proof (activations_unique _ _ _ _ Act Act1) as U. pose proof (activations_unique _ _ _ _ Act' Act1') as U'.
      destruct (proj2 Act i s Es) as (z & Ez & Nz), (proj2 Act' i s Es) as (z' & Ez' & Nz').
      destruct (Hs i s Es) as (_ & (u & draw & l & El & T) & Nm). destruct (G i ltac:(lia)) as (Gi & k & Tk).
      assert (S1 : shape (ys i) = B :: channel a i :: map (width a i) sp) by (rewrite U by lia; apply Sz; lia).
      assert (S2 : shape (ys' i) = B' :: channel a i :: map (width a i) sp) by (rewrite U' by lia; apply Sz'; lia).
      assert (Fi : forall W, In W (map (width a i) sp) -> fits (layer_args a i) W).
      { intros W HW. apply in_map_iff in HW. destruct HW as (W0 & <- & HW0). apply (F W0 HW0). lia. }
      assert (Lm : length (map (width a i) sp) = d) by (now rewrite map_length).
      pose proof (layer_samples _ d k _ u draw l (st_layer s) (ys i) (ys' i) B B' (map (width a i) sp) b b' z z' Tk Gi El T S1 S2 Lm Fi Hb Hb' IH Ez Ez') as Q.
      cbn [a_out layer_args] in Q. rewrite map_map, Nat.add_1_r in Q.
      destruct (st_normal s) as [f|] eqn:En; [|rewrite Nz, Nz'; exact Q].
      destruct (layer_shape _ d k _ u draw l (st_layer s) (ys i) B _ Tk Gi El T S1 Lm Fi) as (z1 & E1 & Sz1). rewrite Ez in E1. injection E1 as <-.
      destruct (layer_shape _ d k _ u draw l (st_layer s) (ys' i) B' _ Tk Gi El T S2 Lm Fi) as (z1 & E1 & Sz1'). rewrite Ez' in E1. injection E1 as <-.
      cbn [a_out layer_args] in Sz1, Sz1'. rewrite map_map, Nat.add_1_r in Sz1, Sz1'.
      exact (Sw s f (nth_error_In _ _ Es) En z z' _ _ B B' _ b b' Sz1 Sz1' Hb Hb' Q Nz Nz'). }
  apply mean_ext. intros ix Hix. apply (Main (layers a) (le_n _)). cbn [valid]. split; [|exact Hix].
  unfold output_size in Hcc. rewrite Hc in Hcc. unfold channel, layers. destruct N as (C & _).
  destruct (cn_channels a) as [|c0 l] using rev_ind; [cbn in C; lia|].
  rewrite last_last in Hcc. rewrite app_length. cbn [length]. replace (length l + 1 - 1)%nat with (length l) by lia. now rewrite nth_middle.
Qed.
Print Assumptions C66_samples_independent.

(** A freshly built network of 2d layers (not Fourier) returns the same output for all inputs of the same shape, whatever its
    depth, padding and random numbers: its layers are constant functions of their inputs. *)
Theorem C66_fresh_network_is_constant : forall a u draw x x' B H W, net_ok 2 a ->
  (forall i, (i < layers a)%nat -> layer_type_of a i <> "fourier2d"%string) ->
  (forall f, cn_normalization a = Some f -> forall c, keeps_shape 4 c (f c) /\
     (forall z z' y y', teq z z' -> f c z = Ok y -> f c z' = Ok y' -> teq y y')) ->
  shape x = [B; channel a 0; H; W] -> shape x' = [B; channel a 0; H; W] ->
  (1 <= H)%nat -> (1 <= W)%nat -> net_fits a H -> net_fits a W ->
  exists m y y', new_conv_net a "2d" u draw = Ok m /\ conv_net_forward m x = Ok y /\ conv_net_forward m x' = Ok y' /\ teq y y'.
Proof.
  intros a u draw x x' B H W N NF Nrm Hx Hx' H1 W1 FH FW.
  destruct (new_net_built 2 a "2d" u draw N) as (m & Em & Bm & Pm & Cm).
  assert (Hm : held_stages a (fc_stages m)) by (apply (built_held 2); auto; intros i f _ Ef; now apply Nrm).
  assert (F : forall w, In w [H; W] -> (1 <= w)%nat /\ net_fits a w) by (intros w [<-|[<-|[]]]; auto).
  destruct (C65_global_average 2 a m x B [H; W] N Hm Cm Pm Hx eq_refl F) as (ys & y & Act & Sh & Ey & Sy & Vy).
  destruct (C65_global_average 2 a m x' B [H; W] N Hm Cm Pm Hx' eq_refl F) as (ys' & y' & Act' & Sh' & Ey' & Sy' & Vy').
  exists m, y, y'. split; [exact Em|]. split; [exact Ey|]. split; [exact Ey'|].
  assert (Main : teq (ys (layers a)) (ys' (layers a))).
  { destruct (activations_exist 2 a (fc_stages m) x B [H; W] N Hm Hx eq_refl (fun W HW => proj2 (F W HW))) as (zs & Act1 & Sz).
    destruct (activations_exist 2 a (fc_stages m) x' B [H; W] N Hm Hx' eq_refl (fun W HW => proj2 (F W HW))) as (zs' & Act1' & Sz').
    pose proof (activations_unique _ _ _ _ Act Act1) as U. pose proof (activations_unique _ _ _ _ Act' Act1') as U'.
    pose proof N as (C & G). set (i := (layers a - 1)%nat). assert (Hi : (i < layers a)%nat) by (unfold i, layers; lia).
    unfold new_conv_net in Em.
    destruct (cn_stages_ok 2 a (length (cn_kernel_size a)) (fun i t c => high_order_convolution_layers t c (u i) (draw i)) N (le_n _)) as (sts & E1 & L1 & V).
    { intros j Hj. destruct (G j Hj) as (Gi & k & T). now apply (factory_ok _ 2 k). }
    rewrite E1 in Em. cbn [rbind] in Em. injection Em as <-. cbn [fc_stages] in *.
    destruct (nth_error sts i) as [s|] eqn:Es; [|apply nth_error_None in Es; lia].
    destruct (proj2 Act i s Es) as (z & Ez & Nz), (proj2 Act' i s Es) as (z' & Ez' & Nz').
    destruct (V i s Es) as (El & Nm). destruct (G i Hi) as (Gi & k & Tk).
    assert (NFk : k <> FourierConv). { intros ->. apply (NF i Hi). unfold conv_class_names in Tk. cbn in Tk. intuition congruence. }
    assert (S1 : shape (ys i) = B :: channel a i :: map (width a i) [H; W]) by (rewrite U by lia; apply Sz; lia).
    assert (S2 : shape (ys' i) = B :: channel a i :: map (width a i) [H; W]) by (rewrite U' by lia; apply Sz'; lia).
    assert (Q : teq z z').
    { apply (fresh_layer (layer_type_of a i) k (layer_args a i) (u i) (draw i) (st_layer s) (ys i) (ys' i) B (width a i H) (width a i W)); auto.
      cbn. lra. }
    replace (layers a) with (S i) by (unfold i, layers; lia).
    destruct (cn_normalization a) as [f|] eqn:En; cbn [option_map] in Nm; rewrite Nm in Nz, Nz'; [|rewrite Nz, Nz'; exact Q].
    destruct (Nrm f eq_refl (channel a (i + 1))) as (_ & Ext). exact (Ext z z' _ _ Q Nz Nz'). }
  split; [congruence|]. rewrite Sy. intros ix Hix. apply valid2 in Hix. destruct Hix as (b & c & -> & Hb & Hc).
  rewrite Vy, Vy' by auto. apply mean_ext. intros jx Hjx. apply Main. rewrite Sh. cbn [valid]. auto.
Qed.
Print Assumptions C66_fresh_network_is_constant.

Example C66_case : net_ok 2 demo_net /\ (forall i, (i < layers demo_net)%nat -> layer_type_of demo_net i <> "fourier2d"%string) /\
  net_fits demo_net 7.
Proof.
  destruct C64_case as (N & _ & F & _). split; [exact N|]. split; [|apply F; lia]. intros i _. cbn. discriminate.
Qed.
