(** * C107: networks of continuous layers in floating point. *)
From Coq Require Import String Reals ZArith List Lia Lra Psatz.
From Flocq Require Import Core.
From Verif Require Import Spec Tensor Utils LagrangePolynomial Basis PolynomialLayers Layers Networks Observe ObserveNet FloatUtils FloatLayers FloatNetworks
  SumFacts TensorFacts LagrangeFacts LayerFacts SegmentFacts LayerProofs LebesgueFacts HeapFacts NetFacts FloatFacts Prop_Init Prop_Bounds Prop_Approx Prop_Universal
  Prop_Lipschitz Prop_Float Prop_FloatLayers Prop_FloatPiecewise Prop_FloatSegments.
Import ListNotations.
Local Open Scope R_scope.

(** The error of one layer (C106) with at most [M] inputs and [S] segments, weights at most [W], nodes stored within [eps]. *)
Definition layer_error (emin prec : Z) (n S M : nat) (W eps A : R) : R :=
  INR M * W * (steepness n * (INR S * (108 * bpow radix2 (- prec)) + eps * A) + A * growth emin prec (4 * n + M * n)) + underflow emin prec (M * n).
(** How much one such layer can enlarge an error of its inputs (C87). *)
Definition layer_gain (n S M : nat) (W : R) : R := INR M * (W * steepness n * INR S).

Lemma growth_mono emin prec k k' : (k <= k')%nat -> growth emin prec k <= growth emin prec k'.
Proof. intros H. unfold growth. apply Rplus_le_compat_r, Rle_pow; auto. pose proof (bpow_ge_0 radix2 (- prec)); pose proof (bpow_ge_0 radix2 (emin - 1)). lra. Qed.
Lemma underflow_mono emin prec k k' : (k <= k')%nat -> underflow emin prec k <= underflow emin prec k'.
Proof.
  intros H. unfold underflow. pose proof (bpow_ge_0 radix2 (- prec)) as U. pose proof (bpow_ge_0 radix2 (emin - 1)) as U'.
  assert (P : 0 <= (1 + bpow radix2 (- prec)) ^ k) by (apply pow_le; lra).
  apply Rmult_le_compat; [apply pos_INR|now apply Rmult_le_pos|now apply le_INR|]. apply Rmult_le_compat_l; auto. apply Rle_pow; auto. lra.
Qed.
Lemma underflow_pos emin prec k : 0 <= underflow emin prec k.
Proof. unfold underflow. pose proof (bpow_ge_0 radix2 (- prec)) as U. apply Rmult_le_pos; [apply pos_INR|]. apply Rmult_le_pos; [apply bpow_ge_0|apply pow_le; lra]. Qed.

Section Net.
Variables (emin prec : Z) (n S M : nat) (W eps A : R) (X : tensor R).
Hypothesis Hn : (2 <= n)%nat.
Hypothesis Hprec : (0 < prec)%Z.
Hypothesis Hemin : (emin <= - 2 * prec)%Z.
Hypothesis Hsize : 128 * INR S * (1 + steepness n) <= bpow radix2 prec.
Hypothesis HX : stored_nodes emin prec n X.
Hypothesis Heps : close_nodes n X eps.
Hypothesis HA : amplified_by n X A.
Hypothesis W0 : 0 <= W.
Let E := layer_error emin prec n S M W eps A.
Let G := layer_gain n S M W.
Hypothesis Hrange : INR M * (2 * INR (n - 1) * W) + E <= 1.

Definition fits_float (l : piecewise) : Prop :=
  held l /\ pw_cls l = PiecewisePolynomial /\ pw_length l = 2 /\ pw_periodicity l = None /\ pw_n l = n /\
  (pw_segments l <= S)%nat /\ (pw_in l <= M)%nat /\ forall o i p, valid (shape (pw_w l)) [o; i; p] -> Rabs (at_ (pw_w l) [o; i; p]) <= W.

Definition in_format (B I : nat) (x : tensor R) : Prop :=
  forall b i, (b < B)%nat -> (i < I)%nat -> representable emin prec (at_ x [b; i]) /\ -1 <= at_ x [b; i] <= 1.

Lemma eps_pos : 0 <= eps.
Proof. destruct (Heps 0%nat ltac:(lia)) as (_ & H). eapply Rle_trans; [apply Rabs_pos|exact H]. Qed.
Lemma A_pos : 0 <= A.
Proof.
  pose proof (HA 0 ltac:(rewrite Rabs_R0; lra)) as H. eapply Rle_trans; [|exact H]. apply rsum_nonneg. intros j _. pose proof (amplification_ge1 n X 0 j). lra.
Qed.
Lemma E_pos : 0 <= E.
Proof.
  unfold E, layer_error. pose proof eps_pos. pose proof A_pos. pose proof (bpow_ge_0 radix2 (- prec)). pose proof (growth_pos emin prec (4 * n + M * n)). pose proof (underflow_pos emin prec (M * n)).
  pose proof (steepness_pos n). pose proof (pos_INR S). pose proof (pos_INR M).
  apply Rplus_le_le_0_compat; auto. apply Rmult_le_pos; [now apply Rmult_le_pos|]. apply Rplus_le_le_0_compat; [|now apply Rmult_le_pos].
  apply Rmult_le_pos; auto. apply Rplus_le_le_0_compat; apply Rmult_le_pos; auto. lra.
Qed.
Lemma G_pos : 0 <= G.
Proof. unfold G, layer_gain. pose proof (steepness_pos n). apply Rmult_le_pos; [apply pos_INR|]. apply Rmult_le_pos; [now apply Rmult_le_pos|apply pos_INR]. Qed.

(** One layer, on inputs in the format and in range: near the real layer, and again in the format and in range. *)
Lemma one_layer l B x y : fits_float l -> shape x = [B; pw_in l] -> in_format B (pw_in l) x -> fl_piecewise_forward (nearest emin prec) l X x y ->
  shape y = [B; pw_out l] /\ in_format B (pw_out l) y /\ forall b o, (b < B)%nat -> (o < pw_out l)%nat -> Rabs (at_ y [b; o] - layer_out l (row x b) o) <= E.
Proof.
  intros (H & Hc & HL & Hp & En & HS & HM & HW) Hx Fx F. pose proof (held_wf l H) as (_ & S1 & Hi & _). pose proof (steepness_pos n) as K0.
  pose proof (bpow_ge_0 radix2 (- prec)) as U0. pose proof eps_pos as e0. pose proof A_pos as a0.
  assert (RS : INR (pw_segments l) <= INR S) by now apply le_INR. assert (RM : INR (pw_in l) <= INR M) by now apply le_INR. pose proof (pos_INR (pw_segments l)) as P1. pose proof (pos_INR (pw_in l)) as P2.
  destruct (C106_continuous emin prec l X eps A W x y B) as (z & Ez & Sz & Sy & D); auto; try (rewrite En; assumption).
  { rewrite En. eapply Rle_trans; [|exact Hsize]. apply Rmult_le_compat_r; lra. }
  destruct (forward_rows l x B H Hx) as (z' & Ez' & _ & V). rewrite Ez in Ez'. injection Ez' as <-.
  assert (Err : forall b o, (b < B)%nat -> (o < pw_out l)%nat -> Rabs (at_ y [b; o] - layer_out l (row x b) o) <= E).
  { intros b o Hb Ho. rewrite <- V by auto. eapply Rle_trans; [now apply D|]. unfold E, layer_error. rewrite En. apply Rplus_le_compat.
    - pose proof (growth_pos emin prec (4 * n + pw_in l * n)) as g0.
      assert (g1 : growth emin prec (4 * n + pw_in l * n) <= growth emin prec (4 * n + M * n)) by (apply growth_mono; apply Nat.add_le_mono_l, Nat.mul_le_mono_r; auto).
      apply Rmult_le_compat.
      + now apply Rmult_le_pos.
      + apply Rplus_le_le_0_compat; [|now apply Rmult_le_pos]. apply Rmult_le_pos; auto. apply Rplus_le_le_0_compat; apply Rmult_le_pos; auto. lra.
      + now apply Rmult_le_compat_r.
      + apply Rplus_le_compat; [|now apply Rmult_le_compat_l]. apply Rmult_le_compat_l; auto. apply Rplus_le_compat_r, Rmult_le_compat_r; lra.
    - apply underflow_mono, Nat.mul_le_mono_r; auto. }
  split; [exact Sy|]. split; [|exact Err]. intros b o Hb Ho. split.
  - destruct F as (B' & Sx' & Sy' & F). assert (B' = B) by congruence. subst B'. destruct (F b o Hb Ho) as (bs & _ & C). apply (contraction_fmt (nearest emin prec) (representable emin prec) (rnd_fmt emin prec Hprec) _ _ C).
  - specialize (Err b o Hb Ho).
    pose proof (C79_bounded_weights_bound_output l W (row x b) o H HL ltac:(rewrite Hc; now left) ltac:(lia) Ho ltac:(intros; now apply HW)
      ltac:(unfold inputs_in_range; rewrite Hp; intros i Hi'; now apply Fx)) as Bd. rewrite En in Bd.
    assert (N0 : 0 <= 2 * INR (n - 1) * W) by (pose proof (pos_INR (n - 1)); apply Rmult_le_pos; lra).
    assert (Bd' : INR (pw_in l) * (2 * INR (n - 1) * W) <= INR M * (2 * INR (n - 1) * W)) by now apply Rmult_le_compat_r.
    apply Rabs_le_inv. replace (at_ y [b; o]) with ((at_ y [b; o] - layer_out l (row x b) o) + layer_out l (row x b) o) by ring.
    eapply Rle_trans; [apply Rabs_triang|]. lra.
Qed.

Lemma layer_gains l v v' e o : fits_float l -> (o < pw_out l)%nat -> (forall i, (i < pw_in l)%nat -> -1 <= v i <= 1) -> (forall i, (i < pw_in l)%nat -> -1 <= v' i <= 1) ->
  (forall i, (i < pw_in l)%nat -> Rabs (v i - v' i) <= e) -> Rabs (layer_out l v o - layer_out l v' o) <= G * e.
Proof.
  intros (H & Hc & HL & Hp & En & HS & HM & HW) Ho Hv Hv' He. pose proof (held_wf l H) as (_ & S1 & Hi & _). pose proof (steepness_pos n) as K0.
  assert (e0 : 0 <= e) by (eapply Rle_trans; [apply Rabs_pos|apply (He 0%nat); lia]).
  assert (RS : INR (pw_segments l) <= INR S) by now apply le_INR. assert (RM : INR (pw_in l) <= INR M) by now apply le_INR. pose proof (pos_INR (pw_segments l)) as P1. pose proof (pos_INR (pw_in l)) as P2.
  eapply Rle_trans; [apply (C87_layer_lipschitz l W v v' o H HL Hc Ho ltac:(intros; now apply HW) ltac:(unfold inputs_in_range; now rewrite Hp) ltac:(unfold inputs_in_range; now rewrite Hp))|].
  assert (R1 : rsum (pw_in l) (fun i => Rabs (v i - v' i)) <= INR M * e).
  { apply Rle_trans with (INR (pw_in l) * e); [rewrite <- rsum_const; apply rsum_le; auto|now apply Rmult_le_compat_r]. }
  rewrite En. unfold G, layer_gain.
  replace (INR M * (W * steepness n * INR S) * e) with ((W * steepness n * INR S) * (INR M * e)) by ring.
  assert (0 <= W * steepness n) by now apply Rmult_le_pos.
  apply Rmult_le_compat; auto; [now apply Rmult_le_pos|apply rsum_nonneg; intros; apply Rabs_pos|now apply Rmult_le_compat_l].
Qed.

Lemma range_layer l v o : fits_float l -> (o < pw_out l)%nat -> (forall i, (i < pw_in l)%nat -> -1 <= v i <= 1) -> -1 <= layer_out l v o <= 1.
Proof.
  intros (H & Hc & HL & Hp & En & HS & HM & HW) Ho Hv.
  pose proof (C79_bounded_weights_bound_output l W v o H HL ltac:(rewrite Hc; now left) ltac:(lia) Ho ltac:(intros; now apply HW)
      ltac:(unfold inputs_in_range; rewrite Hp; intros i Hi'; now apply Hv)) as Bd. rewrite En in Bd.
  assert (N0 : 0 <= 2 * INR (n - 1) * W) by (pose proof (pos_INR (n - 1)); apply Rmult_le_pos; lra).
  assert (Bd' : INR (pw_in l) * (2 * INR (n - 1) * W) <= INR M * (2 * INR (n - 1) * W)) by (apply Rmult_le_compat_r; auto; now apply le_INR).
  apply Rabs_le_inv. pose proof E_pos. lra.
Qed.

Lemma float_through h L ls I O : Forall2 (fun k l => get h k = OPiecewise l) L ls -> chain I ls O -> Forall fits_float ls ->
  forall x y B v e, shape x = [B; I] -> in_format B I x -> fl_run (nearest emin prec) h X L x y ->
  (forall b i, (b < B)%nat -> (i < I)%nat -> -1 <= v b i <= 1) ->
  (forall b i, (b < B)%nat -> (i < I)%nat -> Rabs (at_ x [b; i] - v b i) <= e) ->
  shape y = [B; O] /\ in_format B O y /\ forall b o, (b < B)%nat -> (o < O)%nat ->
    Rabs (at_ y [b; o] - through ls (v b) o) <= G ^ length ls * e + E * rsum (length ls) (fun j => G ^ j).
Proof.
  intros F C. revert L F. induction C as [I|l ls O Hl C IH]; intros L F Fs x y B v e Hx Fx R Hv He; inversion F as [|k ? L' ? Gk F']; subst.
  - inversion R; subst. cbn [through length pow rsum]. rewrite Rmult_0_r, Rplus_0_r, Rmult_1_l. auto.
  - inversion R as [|? ? l' ? y1 ? Gk' F1 R']; subst. rewrite Gk in Gk'. injection Gk' as <-. pose proof (Forall_inv Fs) as Fl. pose proof (Forall_inv_tail Fs) as Fs'.
    destruct (one_layer l B x y1 Fl Hx Fx F1) as (S1 & Fy & E1).
    destruct (IH L' F' Fs' y1 y B (fun b => layer_out l (v b)) (G * e + E)) as (Sy & Fy' & D); auto.
    + intros b i Hb Hi. apply range_layer; auto.
    + intros b o Hb Ho. replace (at_ y1 [b; o] - layer_out l (v b) o) with ((layer_out l (row x b) o - layer_out l (v b) o) + (at_ y1 [b; o] - layer_out l (row x b) o)) by ring.
      eapply Rle_trans; [apply Rabs_triang|]. apply Rplus_le_compat; auto. apply layer_gains; auto.
      intros i Hi. now apply Fx. intros i Hi. now apply He.
    + split; auto. split; auto. intros b o Hb Ho. cbn [through]. eapply Rle_trans; [now apply D|]. right. cbn [length].
      change (rsum (Datatypes.S (length ls)) (fun j => G ^ j)) with (rsum (length ls) (fun j => G ^ j) + G ^ length ls). cbn [pow]. ring.
Qed.
End Net.

Lemma run_exists emin prec h X L ls I O : (forall l, In l ls -> (1 <= pw_n l)%nat /\ (1 <= pw_in l)%nat) -> Forall2 (fun k l => get h k = OPiecewise l) L ls -> chain I ls O ->
  forall x B, shape x = [B; I] -> exists y, fl_run (nearest emin prec) h X L x y.
Proof.
  intros P F C. revert L F P. induction C as [I|l ls O Hl C IH]; intros L F P x B Hx; inversion F as [|k ? L' ? Gk F']; subst.
  - exists x. constructor.
  - destruct (P l ltac:(now left)) as (P1 & P2). destruct (C100_exists emin prec l X x B P1 P2 Hx) as (y & Hy).
    pose proof Hy as (B' & Sx & Sy & _). assert (B' = B) by congruence. subst B'.
    destruct (IH L' F' ltac:(intros; apply P; now right) y B Sy) as (z & Hz). exists z. econstructor; eauto.
Qed.

(** The sequence a float network runs through is the one of its layers. *)
Lemma run_layers rnd h X L x y : fl_run rnd h X L x y -> filter (fun k => is_layer (get h k)) L = L.
Proof. induction 1 as [|k L l x y z Gk F R IH]; [reflexivity|]. cbn [filter]. rewrite Gk. cbn [is_layer]. now rewrite IH. Qed.
Lemma mlp_run rnd h net X x y : fl_mlp_forward rnd h net X x y -> fl_run rnd h X (network_layers h net) x y.
Proof. intros (dl & k1 & k2 & q & L & G & Q & R). unfold network_layers, model_of. rewrite G, Q. now rewrite (run_layers _ _ _ _ _ _ R). Qed.

Lemma cfg_fields l c nn I O s : cfg_of l = pw_slot c nn I O s None -> pw_cls l = c /\ pw_n l = nn /\ pw_in l = I /\ pw_out l = O /\ pw_segments l = s /\ pw_length l = 2 /\ pw_periodicity l = None.
Proof. unfold cfg_of, pw_slot. intros E. injection E as -> -> -> -> -> -> ->. repeat split. Qed.

Lemma configs_bounded c n d m K H si sh so S M : (d <= M)%nat -> (H <= M)%nat -> (si <= S)%nat -> (sh <= S)%nat -> (so <= S)%nat ->
  Forall (fun k => exists I O s, k = pw_slot c n I O s None /\ (I <= M)%nat /\ (s <= S)%nat) (mlp_configs c n d m K H si sh so).
Proof.
  intros. unfold mlp_configs. constructor; [exists d, H, si; repeat split; lia|]. apply Forall_app. split.
  - apply Forall_forall. intros k Hk. apply repeat_spec in Hk. exists H, H, sh. repeat split; auto; lia.
  - constructor; [exists H, m, so; repeat split; lia|constructor].
Qed.

(** ** C107: HighOrderMLP with continuous layers, in floating point
    [S] bounds the segments, [M] the widths, [W] the weights, so that the layers stay in range; the inputs are numbers of the format
    in [[-1,1]].  Every result the floating point network may return is within the bound of the real network's result. *)
Theorem C107_mlp_error : forall g emin prec n d m K H si sh so h0 net h1 h S M W X eps A x y B,
  wf_heap h0 -> (2 <= n)%nat -> (1 <= d <= M)%nat -> (1 <= m)%nat -> (1 <= H <= M)%nat -> (1 <= si <= S)%nat -> (1 <= sh <= S)%nat -> (1 <= so <= S)%nat ->
  HighOrderMLP g (layers_only "continuous" n d m K H si sh so) h0 = Ok (net, h1) -> retrained h1 h ->
  (0 < prec)%Z -> (emin <= - 2 * prec)%Z -> 128 * INR S * (1 + steepness n) <= bpow radix2 prec ->
  stored_nodes emin prec n X -> close_nodes n X eps -> amplified_by n X A ->
  (forall k l ix, In k (network_layers h1 net) -> get h k = OPiecewise l -> valid (shape (pw_w l)) ix -> Rabs (at_ (pw_w l) ix) <= W) ->
  let E := layer_error emin prec n S M W eps A in
  INR M * (2 * INR (n - 1) * W) + E <= 1 ->
  shape x = [B; d] -> in_format emin prec B d x ->
  fl_mlp_forward (nearest emin prec) h net X x y ->
  exists z, call h net x = Ok z /\ shape z = [B; m] /\ shape y = [B; m] /\ in_format emin prec B m y /\
    forall b o, (b < B)%nat -> (o < m)%nat ->
      Rabs (at_ y [b; o] - at_ z [b; o]) <= E * rsum (K + 2) (fun j => layer_gain n S M W ^ j).
Proof.
  intros g emin prec n d m K H si sh so h0 net h1 h S M W X eps A x y B Wf Hn Hd Hm HH Hsi Hsh Hso Eq Rh Hp He Hs HX Hc HA HW E Hr Hx Fx F.
  destruct (mlp_sequence g "continuous" PiecewisePolynomial n d m K H si sh so h0 net h1 Wf ltac:(now left) ltac:(lia) ltac:(lia) ltac:(lia) ltac:(lia) ltac:(lia) ltac:(lia) ltac:(lia) Eq)
    as (L & _ & P).
  destruct (P h1 (NetCopy.retrained_refl _)) as (L1 & _). rewrite L1 in HW.
  destruct (P h Rh) as (L2 & ls & Fl & Hh & Cf & Ch & R). destruct (R x B Hx) as (z & Ez & Sz & Hz). exists z.
  apply mlp_run in F. rewrite L2 in F.
  assert (Ln : length ls = (K + 2)%nat).
  { rewrite <- (map_length cfg_of), Cf. unfold mlp_configs. cbn [length]. rewrite app_length, repeat_length. cbn. lia. }
  assert (Fs : Forall (fits_float n S M W) ls).
  { pose proof (configs_bounded PiecewisePolynomial n d m K H si sh so S M ltac:(lia) ltac:(lia) ltac:(lia) ltac:(lia) ltac:(lia)) as Cs. rewrite <- Cf in Cs. clear - Fl Hh Cs HW.
    induction Fl as [|k l L ls Gk Fl IH]; [constructor|]. cbn [map] in Cs. pose proof (Forall_inv Cs) as (I & O & s & Ec & HI & Hs). apply cfg_fields in Ec. destruct Ec as (C1 & C2 & C3 & C4 & C5 & C6 & C7).
    constructor.
    - split; [now apply Forall_inv in Hh|]. do 4 (split; [assumption|]). split; [lia|]. split; [lia|]. intros o i p V. apply (HW k l); auto. now left.
    - apply IH; [intros k' l' ix Hk'; apply (HW k'); now right|now apply Forall_inv_tail in Hh|now apply Forall_inv_tail in Cs]. }
  assert (W0 : 0 <= W).
  { destruct ls as [|l ls]; [cbn in Ln; lia|]. destruct L as [|k L]; [inversion Fl|]. pose proof (Forall_inv Hh) as Hl. destruct (held_wf l Hl) as (N1 & S1 & I1 & O1 & _).
    eapply Rle_trans; [apply Rabs_pos|]. apply (HW k l [0%nat; 0%nat; weight_pos (pw_cls l) (pw_n l) 0 0]); [now left|now inversion Fl|]. apply wf_weight; auto. }
  destruct (float_through emin prec n S M W eps A X Hn Hp He Hs HX Hc HA W0 Hr h L ls d m Fl Ch Fs x y B (fun b => row x b) 0) as (Sy & Fy & D); auto.
  - intros b i Hb Hi. now apply Fx.
  - intros b i Hb Hi. unfold row. rewrite Rminus_eq_0, Rabs_R0. lra.
  - do 4 (split; auto). intros b o Hb Ho. rewrite Hz by auto. rewrite <- Ln. specialize (D b o Hb Ho). rewrite Rmult_0_r, Rplus_0_l in D. exact D.
Qed.
Print Assumptions C107_mlp_error.

Lemma continuous_slots n d m K H si sh so : mlp_slots (layers_only "continuous" n d m K H si sh so) n n n si sh so = map SP (mlp_configs PiecewisePolynomial n d m K H si sh so).
Proof.
  set (a := layers_only "continuous" n d m K H si sh so).
  unfold mlp_slots, mlp_configs. cbn [map]. rewrite map_app. cbn [map app].
  assert (Ly : forall n I O s per, layer_slot "continuous" n I O s per = SP (pw_slot PiecewisePolynomial n I O s per)) by reflexivity.
  assert (Dr : drop_slots a = []) by (unfold drop_slots; cbn; destruct Rlt_dec; [lra|reflexivity]).
  unfold hidden_slots. rewrite Dr. cbn [a layers_only ma_layer_type ma_layer_type_in or_string ma_normalization ma_non_linearity between_slots app ma_in_width ma_hidden_width ma_out_width ma_periodicity ma_hidden_layers].
  rewrite !Ly. f_equal. f_equal. clear. induction K as [|K IH]; [reflexivity|]. cbn [repeat concat map app]. now rewrite IH.
Qed.

(** Such results exist. *)
Theorem C107_exists : forall g emin prec n d m K H si sh so h0 net h1 h X x B,
  wf_heap h0 -> (1 <= n)%nat -> (1 <= d)%nat -> (1 <= m)%nat -> (1 <= H)%nat -> (1 <= si)%nat -> (1 <= sh)%nat -> (1 <= so)%nat ->
  HighOrderMLP g (layers_only "continuous" n d m K H si sh so) h0 = Ok (net, h1) -> retrained h1 h -> shape x = [B; d] ->
  exists y, fl_mlp_forward (nearest emin prec) h net X x y.
Proof.
  intros g emin prec n d m K H si sh so h0 net h1 h X x B Wf Hn Hd Hm HH Hsi Hsh Hso Eq Rh Hx.
  destruct (mlp_sequence g "continuous" PiecewisePolynomial n d m K H si sh so h0 net h1 Wf ltac:(now left) Hn Hd Hm HH Hsi Hsh Hso Eq) as (L & _ & P).
  destruct (P h Rh) as (L2 & ls & Fl & Hh & Cf & Ch & _).
  destruct (mlp_view g (layers_only "continuous" n d m K H si sh so) h0 h1 h net n n n si sh so Wf) as (nl & dl & k1 & k2 & q & L' & Wh & Ln & G & Lq & Q & Bu & _); auto.
  { apply layers_only_plain; auto. unfold refinable_type. tauto. }
  { intros k Ek. discriminate. }
  assert (All : filter (fun k => is_layer (get h k)) L' = L').
  { pose proof (b_desc _ _ _ _ _ _ Bu) as D. rewrite continuous_slots in D. revert D. generalize (mlp_configs PiecewisePolynomial n d m K H si sh so). clear.
    induction L' as [|k L' IH]; intros cs D; [reflexivity|]. destruct cs as [|c cs]; cbn [map] in D; [now inversion D|].
    assert (D0 : describes nl dl h k (SP c)) by now inversion D. assert (D' : Forall2 (describes nl dl h) L' (map SP cs)) by now inversion D.
    destruct D0 as (_ & l & El & _). cbn [filter]. rewrite El. cbn [is_layer]. now rewrite (IH cs). }
  unfold network_layers, model_of in L2. rewrite G, Q, All in L2. subst L'.
  destruct (run_exists emin prec h X L ls d m) with (x := x) (B := B) as (y & Hy); auto.
  { intros l Hl. rewrite Forall_forall in Hh. pose proof (held_wf l (Hh l Hl)) as (A1 & _ & A3 & _). auto. }
  exists y. exists dl, k1, k2, q, L. auto.
Qed.
Print Assumptions C107_exists.

(** ** A concrete case: float32, a 2-3-1 network with one hidden layer, two nodes, four segments, all weights 1/16. *)
Definition ends : tensor R := mkT [2%nat] (fun ix => match ix with [0%nat] => -1 | _ => 1 end).
Lemma ends_stored : stored_nodes (-149) 24 2 ends.
Proof.
  split.
  - intros k Hk. assert (F1 : representable (-149) 24 1) by (apply fmt_1; lia).
    destruct k as [|[|k]]; try lia; cbn; [replace (-1) with (- (1)) by ring; now apply fmt_opp|exact F1].
  - intros [|[|k]] [|[|k']] Hk Hk' Ne; try lia; cbn; lra.
Qed.
Lemma ends_close : close_nodes 2 ends 0.
Proof.
  intros k Hk. assert (L0 : lobatto 2 0 = -1) by (apply (node_first 2); lia). assert (L1 : lobatto 2 1 = 1) by (apply (node_last 2); lia).
  destruct k as [|[|k]]; try lia; cbn [at_ ends]; rewrite ?L0, ?L1; (split; [lra|]); replace (_ - _) with 0 by ring; rewrite Rabs_R0; lra.
Qed.
Lemma ends_spread : amplified_by 2 ends 3.
Proof.
  replace 3 with (node_spread 2 ends); [apply C106_amplification|].
  - exact (proj2 ends_stored).
  - intros k Hk. now apply ends_close.
  - unfold node_spread. cbn. rewrite (Rabs_left (-1 - 1)), (Rabs_pos_eq (1 - -1)) by lra. field; lra.
Qed.

Example C107_case : forall g, exists net h1 h, HighOrderMLP g (layers_only "continuous" 2 2 1 1 3 4 4 4) [] = Ok (net, h1) /\ retrained h1 h /\
  forall x B, shape x = [B; 2%nat] -> in_format (-149) 24 B 2 x ->
    (exists y, fl_mlp_forward (nearest (-149) 24) h net ends x y) /\
    forall y, fl_mlp_forward (nearest (-149) 24) h net ends x y -> exists z, call h net x = Ok z /\
      forall b, (b < B)%nat -> Rabs (at_ y [b; 0%nat] - at_ z [b; 0%nat]) <= / 2 ^ 16.
Proof.
  intros g. set (cs := mlp_configs PiecewisePolynomial 2 2 1 1 3 4 4 4).
  assert (Cs : Forall (fun c => (1 <= c_n c)%nat /\ (1 <= c_in c)%nat /\ (1 <= c_out c)%nat /\ (1 <= c_seg c)%nat) cs).
  { unfold cs, mlp_configs. cbn. repeat constructor. }
  assert (Wf : wf_heap []) by (intros k Hk; cbn in Hk; lia).
  assert (F : forall w c, In c cs -> held (flat c w)).
  { intros w c Hc. pose proof (proj1 (flat_layers cs w Cs)) as A. rewrite Forall_forall in A. apply A, (in_map (fun c => flat c w)), Hc. }
  destruct (load_mlp g "continuous" 2 2 1 1 3 4 4 4 [] (flat (pw_slot PiecewisePolynomial 2 2 3 4 None) 0)
     [flat (pw_slot PiecewisePolynomial 2 3 3 4 None) 0] (flat (pw_slot PiecewisePolynomial 2 3 1 4 None) 0) PiecewisePolynomial Wf)
     as (net & h1 & _ & E & _); auto.
  { apply F. unfold cs, mlp_configs. now left. }
  { constructor; [|constructor]. split; [|reflexivity]. apply F. unfold cs, mlp_configs. right. now left. }
  { apply F. unfold cs, mlp_configs. right. right. now left. }
  destruct (mlp_sequence g "continuous" PiecewisePolynomial 2 2 1 1 3 4 4 4 [] net h1 Wf ltac:(now left) ltac:(lia) ltac:(lia) ltac:(lia) ltac:(lia) ltac:(lia) ltac:(lia) ltac:(lia) E)
    as (L & Ld & P).
  destruct (P h1 (NetCopy.retrained_refl _)) as (EL & _).
  destruct (flat_layers cs (1/16) Cs) as (A1 & A2). destruct (Ld _ A1 A2) as (h & Rh & G). exists net, h1, h. do 2 (split; auto). intros x B Hx Fx. split.
  { apply (C107_exists g (-149) 24 2 2 1 1 3 4 4 4 [] net h1 h ends x B); auto. }
  assert (St : steepness 2 = 1) by (unfold steepness; cbn; field).
  assert (Er : layer_error (-149) 24 2 4 3 (1/16) 0 3 <= 100 * / 16777216).
  { unfold layer_error. rewrite St. pose proof (C99_growth (-149) 24 14) as Gr. cbn [Nat.mul Nat.add] in *. change (- (24))%Z with (-24)%Z in *.
    assert (B1 : bpow radix2 (-149 - 1) <= bpow radix2 (-34)) by (apply bpow_le; lia). pose proof (bpow_ge_0 radix2 (-149 - 1)) as B0.
    assert (B2 : bpow radix2 (-24) = / 16777216) by (cbn; f_equal; lra). assert (B3 : bpow radix2 (-34) = / 17179869184) by (cbn; f_equal; lra). rewrite B2, B3 in *. set (e := bpow radix2 (-149 - 1)) in *.
    specialize (Gr ltac:(cbn; lra)). set (gr := growth _ _ _) in *.
    assert (Un : underflow (-149) 24 6 <= 6 * (/ 17179869184 * 64)).
    { unfold underflow. change (- (24))%Z with (-24)%Z. rewrite B2. fold e. assert (0 <= (1 + / 16777216) ^ 6 <= 64) by (cbn; lra). set (hh := (1 + / 16777216) ^ 6) in *. cbn [INR]. nra. }
    set (un := underflow _ _ _) in *. cbn [INR] in *. lra. }
  intros y Fy. destruct (C107_mlp_error g (-149) 24 2 2 1 1 3 4 4 4 [] net h1 h 4 3 (1/16) ends 0 3 x y B Wf) as (z & Ez & _ & _ & _ & D); auto; try lia.
  - rewrite St. cbn. lra.
  - exact ends_stored.
  - exact ends_close.
  - exact ends_spread.
  - intros k l ix Hk Hl _. rewrite EL in Hk. destruct (in_Forall2 _ _ _ k G Hk) as (l' & Hl' & El). rewrite Hl in El. injection El as <-.
    apply in_map_iff in Hl'. destruct Hl' as (c & <- & Hc). cbn. rewrite Rabs_pos_eq; lra.
  - cbn [Nat.sub INR]. lra.
  - exists z. split; auto. intros b Hb. eapply Rle_trans; [apply D; auto|].
    assert (Gn : layer_gain 2 4 3 (1/16) = 3/4) by (unfold layer_gain; rewrite St; cbn; field). rewrite Gn. cbn [Nat.add rsum pow]. lra.
Qed.
