(** * Facts about convolutional networks. *)
From Coq Require Import String Reals ZArith List Lia Lra Bool.
From Verif Require Import Spec Tensor Utils Convolution Layers Vae ConvNetworks Observe ObserveConv ObserveConvNet
  SumFacts TensorFacts ConvFacts.
Import ListNotations.
Local Open Scope R_scope.

Lemma conv_factory_class t d k : In (t, (d, k)) conv_class_names ->
  (d = 2%nat \/ (d = 1%nat /\ k <> FourierConv)) /\
  forall a u draw, high_order_convolution_layers t a u draw = (if Nat.eqb d 2 then class2d k a u draw else class1d k a u draw).
Proof.
  unfold conv_class_names. cbn [In].
  intros [E|[E|[E|[E|[E|[E|[E|[]]]]]]]]; injection E as <- <- <-; (split; [auto|reflexivity]); right; split; congruence.
Qed.

Lemma collect_spec {A} (body : nat -> res A) n : forall i l, collect body i n = Ok l ->
  length l = n /\ forall j x, nth_error l j = Some x -> body (i + j)%nat = Ok x.
Proof.
  induction n as [|n IH]; intros i l E; cbn in E.
  - injection E as <-. split; [reflexivity|]. intros [|j] x; discriminate.
  - destruct (body i) as [a|] eqn:Ea; cbn in E; [|discriminate]. destruct (collect body (i + 1) n) as [l'|] eqn:El; cbn in E; [|discriminate].
    injection E as <-. destruct (IH _ _ El) as (L & H). split; [cbn; lia|]. intros [|j] x Hx; cbn in Hx.
    + injection Hx as <-. now rewrite Nat.add_0_r.
    + rewrite <- (H j x Hx). f_equal. lia.
Qed.
Lemma collect_ok {A} (body : nat -> res A) n : forall i, (forall j, (j < n)%nat -> exists x, body (i + j)%nat = Ok x) ->
  exists l, collect body i n = Ok l.
Proof.
  induction n as [|n IH]; intros i H; cbn; [eauto|].
  destruct (H 0%nat ltac:(lia)) as (x & E). rewrite Nat.add_0_r in E. rewrite E. cbn [rbind].
  destruct (IH (i + 1)%nat) as (l & El).
  - intros j Hj. destruct (H (S j) ltac:(lia)) as (y & Ey). exists y. rewrite <- Ey. f_equal. lia.
  - rewrite El. cbn. eauto.
Qed.
Lemma collect_err {A} (body : nat -> res A) n : forall i e, collect body i n = Err e ->
  exists j, (j < n)%nat /\ body (i + j)%nat = Err e.
Proof.
  induction n as [|n IH]; intros i e E; cbn in E; [discriminate|].
  destruct (body i) as [a|e'] eqn:Ea; cbn in E.
  - destruct (collect body (i + 1) n) as [l'|e'] eqn:El; cbn in E; [discriminate|]. injection E as ->.
    destruct (IH _ _ El) as (j & Hj & Ej). exists (S j). split; [lia|]. rewrite <- Ej. f_equal. lia.
  - injection E as ->. exists 0%nat. split; [lia|]. now rewrite Nat.add_0_r.
Qed.

Lemma get_entry {A} (d : A) v size i : entry d v i <> d -> (i < size)%nat -> py_get (scalar_to_list v size) i = Ok (entry d v i).
Proof.
  intros N Hi. destruct v as [[a|l]|]; cbn in *; try contradiction.
  - now rewrite nth_error_repeat.
  - destruct (nth_error l i) as [x|] eqn:E; [now rewrite (nth_error_nth l i d E)|].
    apply nth_error_None in E. contradiction N. now apply nth_overflow.
Qed.
Lemma get_nth (l : list nat) i : (1 <= nth i l 0)%nat -> py_get (Some l) i = Ok (nth i l 0%nat) /\ (i < length l)%nat.
Proof.
  intros H. assert (L : (i < length l)%nat). { destruct (Nat.lt_ge_cases i (length l)); auto. rewrite nth_overflow in H by auto. lia. }
  split; [|exact L]. cbn. now rewrite (nth_error_nth' l 0%nat L).
Qed.

Lemma class_nonempty t c : In (t, c) conv_class_names -> t <> ""%string.
Proof. unfold conv_class_names. cbn. intuition congruence. Qed.

(** The arguments of every layer are found. *)
Lemma cn_layer_lt a size i : (i < size)%nat -> good_args (layer_args a i) -> layer_type_of a i <> ""%string ->
  cn_layer a size i = Ok (layer_type_of a i, layer_args a i).
Proof.
  intros Hi (G1 & G2 & G3 & G4 & G5 & G6 & G7) T.
  unfold layer_args, channel in G1, G2, G3, G4, G5, G6. cbn [a_n a_segments a_in a_out a_kernel a_stride] in *. unfold layer_type_of in *.
  destruct (get_nth _ _ G5) as (Ek & Lk).
  unfold cn_layer. rewrite (get_entry ""%string) by auto. cbn [rbind].
  rewrite (get_entry 0%nat (cn_n a)) by (auto; lia). cbn [rbind].
  rewrite (proj1 (get_nth _ _ G3)). cbn [rbind]. rewrite (proj1 (get_nth _ _ G4)). cbn [rbind]. rewrite Ek. cbn [rbind].
  rewrite (get_entry 0%nat (cn_segments a)) by (auto; lia). cbn [rbind].
  unfold layer_args, layer_type_of, channel. destruct (cn_stride a) as [s|] eqn:Es; cbn [scalar_to_list].
  - pose proof (get_entry 0%nat (Some s) size i ltac:(lia) Hi) as E. destruct s as [s|s]; cbn [scalar_to_list] in E; rewrite E; reflexivity.
  - reflexivity.
Qed.

Lemma cn_layer_ok a size i : (length (cn_kernel_size a) <= size)%nat -> good_args (layer_args a i) -> layer_type_of a i <> ""%string ->
  cn_layer a size i = Ok (layer_type_of a i, layer_args a i).
Proof.
  intros Hs G T. apply cn_layer_lt; auto. destruct G as (_ & _ & _ & _ & G5 & _). destruct (get_nth _ _ G5). lia.
Qed.

Lemma cn_check_ok a size : (2 <= length (cn_channels a))%nat -> cn_layer_type a <> None -> cn_n a <> None -> cn_segments a <> None ->
  cn_check a size = Ok tt.
Proof.
  intros C T N S. unfold cn_check. destruct (Nat.ltb_spec (length (cn_channels a)) 2); [lia|].
  assert (L : forall A (v : option (listed A)), v <> None -> exists l, scalar_to_list v size = Some l) by (intros A [[|]|]; cbn; eauto; contradiction).
  destruct (L _ _ T) as (lt & ->), (L _ _ N) as (ln & ->), (L _ _ S) as (ls & ->).
  unfold lengths_differ, channels_differ, is_False. cbn [py_len rbind].
  rewrite andb_false_r.
  repeat match goal with |- context [negb ?c] => destruct c; cbn [negb rbind] end; reflexivity.
Qed.

Lemma net_given d a : net_ok d a -> cn_layer_type a <> None /\ cn_n a <> None /\ cn_segments a <> None.
Proof.
  intros (C & H). destruct (H 0%nat ltac:(unfold layers; lia)) as ((G1 & G2 & _) & k & T). apply class_nonempty in T. cbn in *.
  unfold layer_type_of in T. repeat split; intros E; rewrite E in *; cbn in *; try lia; congruence.
Qed.

Lemma cn_stages_lt {L} d a size (make : nat -> string -> conv_args -> res L) : net_ok d a -> (layers a <= size)%nat ->
  (forall i, (i < layers a)%nat -> exists l, make i (layer_type_of a i) (layer_args a i) = Ok l) ->
  exists sts, cn_stages a size make = Ok sts /\ length sts = layers a /\
   forall i s, nth_error sts i = Some s -> make i (layer_type_of a i) (layer_args a i) = Ok (st_layer s) /\
     st_normal s = option_map (fun f => f (channel a (i + 1))) (cn_normalization a).
Proof.
  intros N Hs M. destruct (net_given d a N) as (T & Nn & S). destruct N as (C & H).
  assert (St : forall i, (i < layers a)%nat -> forall l, make i (layer_type_of a i) (layer_args a i) = Ok l ->
            cn_stage a size make i = Ok (mkStage l (option_map (fun f => f (channel a (i + 1))) (cn_normalization a)))).
  { intros i Hi l El. destruct (H i Hi) as (G & k & Tk). unfold cn_stage.
    rewrite (cn_layer_lt a size i) by (try exact G; try exact (class_nonempty _ _ Tk); lia). cbn [rbind fst snd]. rewrite El. cbn [rbind].
    destruct (cn_normalization a); cbn [option_map]; [|reflexivity].
    destruct G as (_ & _ & _ & G4 & _). cbn in G4. now rewrite (proj1 (get_nth _ _ G4)). }
  unfold cn_stages. rewrite cn_check_ok by auto. cbn [rbind].
  destruct (collect_ok (cn_stage a size make) (layers a) 0) as (sts & E).
  { intros j Hj. destruct (M j Hj) as (l & El). cbn [Nat.add]. rewrite (St j Hj l El). eauto. }
  unfold layers in *. rewrite E. exists sts. split; [reflexivity|]. destruct (collect_spec _ _ _ _ E) as (Len & V).
  split; [exact Len|]. intros i s Hs'. assert (Hi : (i < length (cn_channels a) - 1)%nat).
  { rewrite <- Len. apply nth_error_Some. congruence. }
  destruct (M i Hi) as (l & El). pose proof (V i s Hs') as Ev. cbn in Ev. rewrite (St i Hi l El) in Ev. injection Ev as <-. cbn. auto.
Qed.

Lemma layers_kernels d a : net_ok d a -> (layers a <= length (cn_kernel_size a))%nat.
Proof.
  intros (C & H). destruct (H (layers a - 1)%nat ltac:(unfold layers; lia)) as ((_ & _ & _ & _ & G5 & _) & _). destruct (get_nth _ _ G5). lia.
Qed.
Lemma cn_stages_ok {L} d a size (make : nat -> string -> conv_args -> res L) : net_ok d a -> (length (cn_kernel_size a) <= size)%nat ->
  (forall i, (i < layers a)%nat -> exists l, make i (layer_type_of a i) (layer_args a i) = Ok l) ->
  exists sts, cn_stages a size make = Ok sts /\ length sts = layers a /\
   forall i s, nth_error sts i = Some s -> make i (layer_type_of a i) (layer_args a i) = Ok (st_layer s) /\
     st_normal s = option_map (fun f => f (channel a (i + 1))) (cn_normalization a).
Proof. intros N Hs M. apply (cn_stages_lt d); auto. pose proof (layers_kernels d a N). lia. Qed.

(** Layers a user can hold. *)
Lemma factory_ok t d k a u draw : In (t, (d, k)) conv_class_names -> good_args a ->
  exists l, high_order_convolution_layers t a u draw = Ok l.
Proof.
  intros H G. destruct (conv_factory_class t d k H) as (D & F). rewrite F. destruct D as [->|(-> & NF)]; cbn [Nat.eqb].
  - destruct (new_conv2d_spec k a u draw G) as (w & E & _). unfold class2d. rewrite E. cbn. eauto.
  - unfold class1d, new_conv1d. destruct k; cbn; eauto; contradiction.
Qed.
Lemma factory_held t d k a u draw l l' : In (t, (d, k)) conv_class_names -> high_order_convolution_layers t a u draw = Ok l ->
  trained_layer l l' ->
  (d = 2%nat /\ exists c, l' = Layer2d c /\ held_conv2d k a c) \/ (d = 1%nat /\ exists c, l' = Layer1d c /\ held_conv1d k a c).
Proof.
  intros H E T. destruct (conv_factory_class t d k H) as (D & F). rewrite F in E.
  destruct D as [->|(-> & NF)]; cbn [Nat.eqb] in E.
  - left. split; [reflexivity|]. unfold class2d, rmap in E. destruct (new_conv2d k a u draw) as [c|] eqn:Ec; cbn in E; [|discriminate].
    injection E as <-. destruct l' as [c'|c']; cbn in T; [|contradiction]. destruct T as (w & Sw & ->).
    exists (conv_with_w c w). split; [reflexivity|]. exists u, draw, c, w. auto.
  - right. split; [reflexivity|]. unfold class1d, rmap in E. destruct (new_conv1d k a u) as [c|] eqn:Ec; cbn in E; [|discriminate].
    injection E as <-. destruct l' as [c'|c']; cbn in T; [contradiction|]. destruct T as (w & Sw & ->).
    exists (conv_with_w c w). split; [reflexivity|]. exists u, c, w. auto.
Qed.

Lemma layer_shape t d k a u draw l l' x B sp : In (t, (d, k)) conv_class_names -> good_args a ->
  high_order_convolution_layers t a u draw = Ok l -> trained_layer l l' ->
  shape x = B :: a_in a :: sp -> length sp = d -> (forall W, In W sp -> fits a W) ->
  exists y, conv_layer_forward l' x = Ok y /\ shape y = B :: a_out a :: map (positions a) sp.
Proof.
  intros H G E T Hx Ls F. pose proof G as (G1 & G2 & _).
  destruct (factory_held t d k a u draw l l' H E T) as [(-> & c & -> & Hc)|(-> & c & -> & Hc)].
  - destruct sp as [|h [|w [|? ?]]]; try discriminate Ls.
    destruct (held_conv2d_eq k a c G Hc) as (wt & -> & Hw).
    destruct (conv2d_forward_value (conv_of k a wt) x B h w (positions a h) (positions a w)) as (y & Ey & Sy & _);
      try assumption; try (apply fits_size; auto; apply F; cbn; auto).
    exists y. split; [exact Ey|exact Sy].
  - destruct sp as [|h [|? ?]]; try discriminate Ls.
    destruct (held_conv1d_eq k a c Hc) as (_ & wt & -> & Hw).
    destruct (conv1d_forward_value (conv_of k a wt) x B h (positions a h)) as (y & Ey & Sy & _);
      try assumption; try (apply fits_size; auto; apply F; cbn; auto).
    exists y. split; [exact Ey|exact Sy].
Qed.

Lemma factory_rank t d k a u draw l l' : In (t, (d, k)) conv_class_names -> high_order_convolution_layers t a u draw = Ok l ->
  trained_layer l l' -> layer_rank l' = (d + 2)%nat.
Proof. intros H E T. destruct (factory_held t d k a u draw l l' H E T) as [(-> & c & -> & _)|(-> & c & -> & _)]; reflexivity. Qed.

(** What a held network is made of. *)
Lemma held_stage d a sts : net_ok d a -> held_stages a sts ->
  length sts = layers a /\
  forall i s, nth_error sts i = Some s -> (i < layers a)%nat /\
    (exists u draw l, high_order_convolution_layers (layer_type_of a i) (layer_args a i) u draw = Ok l /\ trained_layer l (st_layer s)) /\
    match st_normal s with
    | Some f => cn_normalization a <> None /\ keeps_shape (d + 2) (channel a (i + 1)) f
    | None => cn_normalization a = None
    end.
Proof.
  intros N (sts0 & (u & draw & E) & Ls & H). pose proof N as (C & G).
  destruct (cn_stages_ok d a (length (cn_kernel_size a)) (fun i t c => high_order_convolution_layers t c (u i) (draw i)) N (le_n _)) as (sts1 & E1 & L1 & V).
  { intros i Hi. destruct (G i Hi) as (Gi & k & T). now apply (factory_ok _ d k). }
  rewrite E in E1. injection E1 as <-. split; [congruence|]. intros i s Hs.
  assert (Hi : (i < length sts0)%nat) by (rewrite <- Ls; apply nth_error_Some; congruence).
  destruct (nth_error sts0 i) as [s0|] eqn:E0; [|apply nth_error_None in E0; lia].
  destruct (V i s0 E0) as (M & Nm). destruct (H i s0 s E0 Hs) as (T & Nn). split; [congruence|]. split; [eauto|].
  rewrite Nm in Nn. destruct (cn_normalization a), (st_normal s); cbn in Nn; try contradiction; auto. split; [congruence|].
  destruct (G i ltac:(congruence)) as (_ & k & Tk). now rewrite (factory_rank _ d k _ _ _ _ _ Tk M T) in Nn.
Qed.

Lemma activations_run sts : forall x ys, activations sts x ys -> run_stages conv_layer_forward sts x = Ok (ys (length sts)).
Proof.
  induction sts as [|s sts IH]; intros x ys (Y0 & H); cbn; [congruence|].
  destruct (H 0%nat s eq_refl) as (z & Ez & Nz). rewrite <- Y0, Ez. cbn [rbind].
  assert (E : st_apply (st_normal s) z = Ok (ys 1%nat)) by (unfold st_apply; destruct (st_normal s); congruence).
  rewrite E. cbn [rbind]. rewrite (IH (ys 1%nat) (fun i => ys (S i))); [reflexivity|].
  split; [reflexivity|]. intros i s' Hs'. exact (H (S i) s' Hs').
Qed.
Lemma activations_unique sts x ys ys' : activations sts x ys -> activations sts x ys' -> forall i, (i <= length sts)%nat -> ys i = ys' i.
Proof.
  intros (Y0 & H) (Y0' & H'). induction i as [|i IH]; intros Hi; [congruence|].
  destruct (nth_error sts i) as [s|] eqn:Es; [|apply nth_error_None in Es; lia].
  destruct (H i s Es) as (z & Ez & Nz), (H' i s Es) as (z' & Ez' & Nz'). rewrite IH in Ez by lia. rewrite Ez in Ez'. injection Ez' as <-.
  destruct (st_normal s); congruence.
Qed.

Lemma activations_exist d a sts x B sp : net_ok d a -> held_stages a sts -> shape x = B :: channel a 0 :: sp -> length sp = d ->
  (forall W, In W sp -> net_fits a W) ->
  exists ys, activations sts x ys /\ forall i, (i <= layers a)%nat -> shape (ys i) = B :: channel a i :: map (width a i) sp.
Proof.
  intros N Hh Hx Ls F. destruct (held_stage d a sts N Hh) as (Len & Hs). pose proof N as (C & G).
  set (step := fun s x => match rbind (conv_layer_forward (st_layer s) x) (st_apply (st_normal s)) with Ok y => y | Err _ => x end).
  set (dummy := mkStage (Layer1d (mkConv PolynomialConv 0 0 0 0 0 0 0 0 0 None 0 x)) None : stage conv_layer).
  set (ys := fix ys i := match i with O => x | S j => step (nth j sts dummy) (ys j) end).
  assert (Main : forall i, (i <= layers a)%nat -> shape (ys i) = B :: channel a i :: map (width a i) sp /\
            forall j s, (j < i)%nat -> nth_error sts j = Some s -> exists z, conv_layer_forward (st_layer s) (ys j) = Ok z /\
              match st_normal s with Some f => f z = Ok (ys (S j)) | None => ys (S j) = z end).
  { induction i as [|i IH]; intros Hi.
    - split; [|lia]. cbn [ys width]. now rewrite map_id.
    - destruct (IH ltac:(lia)) as (Sh & Old). destruct (nth_error sts i) as [s|] eqn:Es; [|apply nth_error_None in Es; lia].
      destruct (Hs i s Es) as (_ & (u & draw & l & El & T) & Nm). destruct (G i ltac:(lia)) as (Gi & k & Tk).
      destruct (layer_shape _ d k _ u draw l (st_layer s) (ys i) B (map (width a i) sp) Tk Gi El T Sh) as (z & Ez & Sz).
      { now rewrite map_length. }
      { intros W HW. apply in_map_iff in HW. destruct HW as (W0 & <- & HW0). apply (F W0 HW0 i). lia. }
      assert (Ey : ys (S i) = step s (ys i)) by (cbn [ys]; now rewrite (nth_error_nth sts i dummy Es)).
      assert (New : match st_normal s with Some f => f z = Ok (ys (S i)) | None => ys (S i) = z end /\ shape (ys (S i)) = shape z).
      { rewrite Ey. unfold step. rewrite Ez. cbn [rbind st_apply]. unfold st_apply. destruct (st_normal s) as [f|]; [|auto].
        destruct Nm as (_ & K). destruct (K z) as (y & Ef & Sy); [rewrite Sz; cbn [length]; rewrite !map_length; lia|rewrite Sz; reflexivity|]. rewrite Ef. auto. }
      destruct New as (New & Snew). split.
      + rewrite Snew, Sz. cbn [a_out layer_args width]. rewrite map_map, Nat.add_1_r. reflexivity.
      + intros j s' Hj Ej. destruct (Nat.eq_dec j i) as [->|]; [|apply Old; auto; lia].
        rewrite Es in Ej. injection Ej as <-. exists z. auto. }
  exists ys. split; [|intros i Hi; apply Main; auto]. split; [reflexivity|].
  intros i s Es. destruct (Hs i s Es) as (Hi & _). exact (proj2 (Main (S i) Hi) i s ltac:(lia) Es).
Qed.

Lemma positions_pos a W : (1 <= positions a W)%nat.
Proof. unfold positions. lia. Qed.
Lemma width_pos a i W : (1 <= W)%nat -> (1 <= width a i W)%nat.
Proof. destruct i; cbn; [auto|]. intros. apply positions_pos. Qed.

Lemma trained_refl l : trained_layer l l.
Proof. destruct l as [[]|[]]; cbn; eexists; split; reflexivity. Qed.
(** A network just built is one a user can hold. *)
Lemma built_held d a sts : net_ok d a -> built_stages a sts ->
  (forall i f, (i < layers a)%nat -> cn_normalization a = Some f -> keeps_shape (d + 2) (channel a (i + 1)) (f (channel a (i + 1)))) -> held_stages a sts.
Proof.
  intros N (u & draw & E) K. exists sts. split; [exists u, draw; exact E|]. split; [reflexivity|]. intros i s0 s E0 Es.
  rewrite E0 in Es. injection Es as <-. split; [apply trained_refl|].
  destruct (cn_stages_ok d a (length (cn_kernel_size a)) (fun i t c => high_order_convolution_layers t c (u i) (draw i)) N (le_n _)) as (sts1 & E1 & L1 & V).
  { intros j Hj. destruct N as (C & G). destruct (G j Hj) as (Gi & k & T). now apply (factory_ok _ d k). }
  rewrite E in E1. injection E1 as <-. assert (Hi : (i < layers a)%nat) by (rewrite <- L1; apply nth_error_Some; congruence).
  rewrite (proj2 (V i s0 E0)). destruct (cn_normalization a) as [f|] eqn:En; cbn; auto.
  pose proof N as (_ & G). destruct (G i Hi) as (_ & k & Tk). rewrite (factory_rank _ d k _ _ _ _ _ Tk (proj1 (V i s0 E0)) (trained_refl _)). auto.
Qed.
Lemma new_net_built d a pooling u draw : net_ok d a -> exists m, new_conv_net a pooling u draw = Ok m /\ built_stages a (fc_stages m) /\
  fc_pooling m = pooling /\ fc_channels m = cn_channels a.
Proof.
  intros N. unfold new_conv_net.
  destruct (cn_stages_ok d a (length (cn_kernel_size a)) (fun i t c => high_order_convolution_layers t c (u i) (draw i)) N (le_n _)) as (sts1 & E1 & L1 & V).
  { intros j Hj. destruct N as (C & G). destruct (G j Hj) as (Gi & k & T). now apply (factory_ok _ d k). }
  rewrite E1. cbn [rbind]. eexists. split; [reflexivity|]. split; [|auto]. exists u, draw. exact E1.
Qed.

(** Samples that agree (inside the shape) give outputs that agree. *)
Definition same_sample (x x' : tensor R) (b b' : nat) (s : list nat) : Prop :=
  forall ix, valid s ix -> at_ x (b :: ix) = at_ x' (b' :: ix).
Lemma layer_samples t d k a u draw l l' x x' B B' sp b b' y y' : In (t, (d, k)) conv_class_names -> good_args a ->
  high_order_convolution_layers t a u draw = Ok l -> trained_layer l l' ->
  shape x = B :: a_in a :: sp -> shape x' = B' :: a_in a :: sp -> length sp = d -> (forall W, In W sp -> fits a W) ->
  (b < B)%nat -> (b' < B')%nat -> same_sample x x' b b' (a_in a :: sp) ->
  conv_layer_forward l' x = Ok y -> conv_layer_forward l' x' = Ok y' ->
  same_sample y y' b b' (a_out a :: map (positions a) sp).
Proof.
  intros H G E T Hx Hx' Ls F Hb Hb' Eq Ey Ey'. pose proof G as (G1 & G2 & _).
  destruct (factory_held t d k a u draw l l' H E T) as [(-> & c & -> & Hc)|(-> & c & -> & Hc)].
  - destruct sp as [|h [|w [|? ?]]]; try discriminate Ls.
    destruct (held_conv2d_eq k a c G Hc) as (wt & -> & Hw).
    destruct (conv2d_forward_value (conv_of k a wt) x B h w (positions a h) (positions a w)) as (z & Ez & _ & V);
      try assumption; try (apply fits_size; auto; apply F; cbn; auto).
    destruct (conv2d_forward_value (conv_of k a wt) x' B' h w (positions a h) (positions a w)) as (z' & Ez' & _ & V');
      try assumption; try (apply fits_size; auto; apply F; cbn; auto).
    cbn [conv_layer_forward] in Ey, Ey'. rewrite Ey in Ez. injection Ez as <-. rewrite Ey' in Ez'. injection Ez' as <-.
    intros ix Hix. destruct ix as [|o [|p [|q [|? ?]]]]; cbn in Hix; try tauto. rewrite V, V' by auto. unfold conv2d_value.
    f_equal. apply rsum_ext. intros ci Hci. apply rsum_ext. intros i Hi. apply rsum_ext. intros j Hj.
    apply padded_ext. intros yy Hyy. apply padded_ext. intros zz Hzz. apply rsum_ext. intros v Hv.
    rewrite (Eq [ci; yy; zz]); [reflexivity|]. cbn in *. auto.
  - destruct sp as [|h [|? ?]]; try discriminate Ls.
    destruct (held_conv1d_eq k a c Hc) as (_ & wt & -> & Hw).
    destruct (conv1d_forward_value (conv_of k a wt) x B h (positions a h)) as (z & Ez & _ & V);
      try assumption; try (apply fits_size; auto; apply F; cbn; auto).
    destruct (conv1d_forward_value (conv_of k a wt) x' B' h (positions a h)) as (z' & Ez' & _ & V');
      try assumption; try (apply fits_size; auto; apply F; cbn; auto).
    cbn [conv_layer_forward] in Ey, Ey'. rewrite Ey in Ez. injection Ez as <-. rewrite Ey' in Ez'. injection Ez' as <-.
    intros ix Hix. destruct ix as [|o [|p [|? ?]]]; cbn in Hix; try tauto. rewrite V, V' by auto. unfold conv1d_value.
    f_equal. apply rsum_ext. intros ci Hci. apply rsum_ext. intros i Hi.
    apply padded_ext. intros yy Hyy. apply rsum_ext. intros v Hv.
    rewrite (Eq [ci; yy]); [reflexivity|]. cbn in *. auto.
Qed.

(** The output of a fresh 2d layer (not Fourier) does not depend on the values of its input. *)
Lemma fresh_layer t k a u draw l x x' B H W y y' : In (t, (2%nat, k)) conv_class_names -> k <> FourierConv -> good_args a -> a_length a <> 0 ->
  high_order_convolution_layers t a u draw = Ok l ->
  shape x = [B; a_in a; H; W] -> shape x' = [B; a_in a; H; W] -> fits a H -> fits a W ->
  conv_layer_forward l x = Ok y -> conv_layer_forward l x' = Ok y' -> teq y y'.
Proof.
  intros T NF G NL E Hx Hx' FH FW Ey Ey'. destruct (conv_factory_class t 2 k T) as (_ & Fc). rewrite Fc in E. cbn [Nat.eqb] in E.
  destruct (new_conv2d_spec k a u draw G) as (w & Ew & Hw & Vw). unfold class2d, rmap in E. rewrite Ew in E. cbn in E. injection E as <-.
  cbn [conv_layer_forward] in *. pose proof G as (G1 & G2 & _).
  assert (Val : forall x y, shape x = [B; a_in a; H; W] -> conv2d_forward (conv_of k a w) x = Ok y ->
     shape y = [B; a_out a; positions a H; positions a W] /\
     forall b o p q, (b < B)%nat -> (o < a_out a)%nat -> at_ y [b; o; p; q] = rescale_of a * rsum (a_in a) (fun c => rsum (a_kernel a) (fun i => rsum (a_kernel a) (fun j =>
      if (reads a H p i && reads a W q j)%bool then draw [o; c; i; j] * a_weight_magnitude a / INR (a_in a * a_kernel a * a_kernel a) else 0)))).
  { clear x x' y y' Hx Hx' Ey Ey'. intros x y Hx Ey.
    destruct (conv2d_forward_value (conv_of k a w) x B H W (positions a H) (positions a W)) as (z & Ez & Sh & V);
      try assumption; try (now apply fits_size).
    rewrite Ey in Ez. injection Ez as <-. split; [exact Sh|]. intros b o p q Hb Ho. rewrite V by auto. unfold conv2d_value.
    cbn [conv_of cv_rescale cv_in cv_kernel cv_kind cv_n cv_segments cv_length cv_periodicity cv_padding cv_stride cv_dilation cv_w].
    f_equal. apply rsum_ext. intros c Hc. apply rsum_ext. intros i Hi. apply rsum_ext. intros j Hj.
    rewrite padded_reads. destruct (reads a H p i); cbn [andb]; auto. rewrite padded_reads. destruct (reads a W q j); auto.
    rewrite (rsum_ext _ _ (fun v => draw [o; c; i; j] * a_weight_magnitude a / INR (a_in a * a_kernel a * a_kernel a) *
       ev (conv_expansion k true (a_n a) (a_segments a) (a_length a)) (apply_periodicity (conv_per k a) (at_ x [b; c; row_read a p i; row_read a q j])) v)).
    - rewrite rsum_scal, ev_sum by auto. ring.
    - intros v Hv. now rewrite Vw by auto. }
  destruct (Val x y Hx Ey) as (S1 & V1), (Val x' y' Hx' Ey') as (S2 & V2). split; [congruence|]. rewrite S1.
  intros ix Hix. destruct ix as [|b [|o [|p [|q [|? ?]]]]]; cbn in Hix; try tauto. rewrite V1, V2 by tauto. reflexivity.
Qed.
