(** * Networks treat the samples of a batch independently (C89). *)
From Coq Require Import String Reals Lra ZArith List Lia Bool Arith.
From Verif Require Import Spec Tensor Utils Normalization LagrangePolynomial Basis PolynomialLayers Refine ProductLayer LagrangeND
  Layers Networks LayerNorm Observe ObserveNet SumFacts TensorFacts HeapFacts NetFacts NetCopy NetTypes Prop_MLP Prop_Continuity Prop_LayerNorm Modules.
Import ListNotations.
Local Open Scope R_scope.

(** ** Modules *)

Lemma continuous_rowwise W W' f : rowwise_continuous W W' f -> rowwise W W' f.
Proof.
  intros (F & C & H). exists F. split; [|exact H]. intros u v E o Ho. destruct (Req_dec (F u o) (F v o)) as [|N]; auto. exfalso.
  destruct (C o Ho v (Rabs (F u o - F v o))) as (d & Hd & Q); [apply Rabs_pos_lt; lra|].
  specialize (Q u). assert (Rabs (F u o - F v o) < Rabs (F u o - F v o)); [|lra]. apply Q. intros i Hi. rewrite E by auto. replace (v i - v i) with 0 by ring.
  now rewrite Rabs_R0.
Qed.

(** Every activation that is applied entry by entry, continuous or not; the normalisations of the table (layer normalisation
    once its parameters have their sizes); batch normalisation in evaluation mode. *)
Theorem C89_elementwise : forall W f, rowwise W W (fun x => Ok (tmap f x)).
Proof. intros W f. apply (good_pointwise true W f). Qed.
Print Assumptions C89_elementwise.

Theorem C89_normalisations : forall W eps, (1 <= W)%nat -> 0 < eps ->
  rowwise W W (fun x => max_abs_normalization x eps 1) /\
  rowwise W W (fun x => max_abs_normalization_last x eps) /\
  rowwise W W (fun x => max_center_normalization x eps 1) /\
  rowwise W W (fun x => max_center_normalization_last x eps) /\
  rowwise W W (fun x => l2_normalization x eps) /\
  (forall cpu m, sized W m -> rowwise W W (fun x => fst (lazy_layer_norm cpu m x))) /\
  (forall s, rowwise W W (batch_norm false eps s)).
Proof.
  intros W eps HW He. destruct (C78_normalizations_continuous W eps HW He) as (A & B & C & D & E).
  repeat (split; [now apply continuous_rowwise|]). split.
  - intros cpu m Hm. apply continuous_rowwise. now apply C84_continuous.
  - intros s. exists (fun u c => (u c - bn_mean s c) / sqrt (bn_var s c + eps) * bn_weight s c + bn_bias s c). split.
    + intros u v H o Ho. now rewrite H.
    + intros x Bx Hx. unfold batch_norm, batch_norm1d. rewrite Hx. eexists. split; [reflexivity|]. split; [reflexivity|]. intros b o Hb Ho. reflexivity.
Qed.
Print Assumptions C89_normalisations.

(** ** Networks *)

(** Normalisation and activation of the network treat samples independently. *)
Record sample_modules (h : heap) (W : nat) (norm : option norm_class) (act : option nat) : Prop := mkSampleModules {
  sm_norm : forall f ps, norm = Some (f, ps) -> rowwise W W f;
  sm_act : forall k f ps, act = Some k -> get h k = OModule f ps -> rowwise W W f }.

(** What is claimed of a network: with any weights, whatever batch a sample is in and wherever, the outputs for it are the
    same. *)
Definition samples_independent (h : heap) (net W W' : nat) : Prop :=
  forall h', retrained h h' -> forall x x' B B', shape x = [B; W] -> shape x' = [B'; W] ->
  exists y y', call h' net x = Ok y /\ shape y = [B; W'] /\ call h' net x' = Ok y' /\ shape y' = [B'; W'] /\
    forall b b', (b < B)%nat -> (b' < B')%nat -> (forall i, (i < W)%nat -> at_ x [b; i] = at_ x' [b'; i]) ->
    forall o, (o < W')%nat -> at_ y [b; o] = at_ y' [b'; o].

Lemma typed_samples h net W W' : wf_heap h -> typedq true h net W W' -> samples_independent h net W W'.
Proof.
  intros Wf (_ & T) h' Rt x x' B B' Hx Hx'. destruct (T h' (later_retrained h h' Wf Rt)) as (F & X & H).
  destruct (H x B Hx) as (y & E & S & V). destruct (H x' B' Hx') as (y' & E' & S' & V'). exists y, y'. repeat (split; [assumption|]).
  intros b b' Hb Hb' Eq o Ho. rewrite V, V' by auto. apply X; auto.
Qed.

Theorem C89_mlp_samples : forall g a h, wf_heap h -> flat_mlp h a -> sample_modules h (ma_hidden_width a) (ma_normalization a) (ma_non_linearity a) ->
  exists net e, HighOrderMLP g a h = Ok (net, h ++ e) /\ samples_independent (h ++ e) net (ma_in_width a) (ma_out_width a).
Proof.
  intros g a h W F [N A]. destruct (mlp_typedq true g a h W F N A) as (net & e & E & We & T & _). exists net, e. split; [exact E|].
  now apply typed_samples.
Qed.
Print Assumptions C89_mlp_samples.

Theorem C89_low_order_samples : forall g win wout depth wh nl nm h, wf_heap h -> sample_modules h wh nm nl ->
  (forall k, nl = Some k -> (k < length h)%nat /\ exists f ps, get h k = OModule f ps) ->
  exists net e, LowOrderMLP g win wout depth wh nl nm h = Ok (net, h ++ e) /\ samples_independent (h ++ e) net win wout.
Proof.
  intros g win wout depth wh nl nm h W [N A] K. destruct (low_order_typedq true g win wout depth wh nl nm h W) as (net & e & E & _ & We & T).
  - exact N.
  - intros k Hk. destruct (K k Hk) as (L & f & ps & G). split; auto. exists f, ps. split; auto. exact (A k f ps Hk G).
  - exists net, e. split; [exact E|]. now apply typed_samples.
Qed.
Print Assumptions C89_low_order_samples.

(** So evaluating any selection of the samples, in any order and with repetitions (a permutation, a part of the batch, one
    sample alone), gives the same selection of the outputs. *)
Theorem C89_selection : forall h net W W' h' x B y B' (sel : nat -> nat), samples_independent h net W W' -> retrained h h' ->
  shape x = [B; W] -> call h' net x = Ok y -> (forall b, (b < B')%nat -> (sel b < B)%nat) ->
  exists z, call h' net (mkT [B'; W] (fun ix => at_ x [sel (nth 0 ix 0%nat); nth 1 ix 0%nat])) = Ok z /\ shape z = [B'; W'] /\
    forall b o, (b < B')%nat -> (o < W')%nat -> at_ z [b; o] = at_ y [sel b; o].
Proof.
  intros h net W W' h' x B y B' sel S Rt Hx Ey Hs.
  destruct (S h' Rt x (mkT [B'; W] (fun ix => at_ x [sel (nth 0 ix 0%nat); nth 1 ix 0%nat])) B B' Hx eq_refl) as (y1 & z & E1 & _ & Ez & Sz & V).
  rewrite Ey in E1. injection E1 as <-. exists z. split; auto. split; auto. intros b o Hb Ho. symmetry. apply V; auto. 
Qed.
Print Assumptions C89_selection.

(** A residual network with product layers, a switch layer, max-center normalisation, a discontinuous activation and dropout. *)
Example C89_case :
  let a := mkMLP "continuous_prod" (Int 3) 2 5 4 7 2 None None (Some (Int 2)) true (Some 2) (Some 0%nat)
             (Some (Int 1)) (Some (Int 2)) (Some (Int 3)) (Some ((fun x => max_center_normalization x (1/1000000) 1), []))
             true (Some "switch_continuous"%string) "uniform" (1/2) in
  let h := [OModule (fun x => Ok (tmap (fun t => if Rlt_dec t 0 then 0 else 1) x)) []] in
  exists net e, HighOrderMLP (fun k _ => INR k) a h = Ok (net, h ++ e) /\ samples_independent (h ++ e) net 2 5.
Proof.
  cbv zeta. destruct (C89_normalisations 7 (1/1000000)) as (_ & _ & N & _); [lia|lra|].
  apply (C89_mlp_samples (fun k _ => INR k)).
  - intros [|i] Hi j Hj; [destruct Hj|cbn in Hi; lia].
  - constructor; cbn; try lra; try lia.
    + right. right. split; [cbn; tauto|]. exists 3%nat, 1%nat. auto with arith.
    + right. right. right. split; [cbn; tauto|]. exists 2%nat, 3%nat. auto with arith.
    + right. right. split; [cbn; tauto|]. exists 3%nat, 2%nat. auto with arith.
    + intros f ps E. injection E as <- _. intros x B Hx. destruct (rowwise_maps _ _ _ N x B Hx) as (y & Ey & Sy). exists y. split; auto. congruence.
    + intros k E. injection E as <-. split; [lia|]. eexists _, _. split; [reflexivity|]. intros x B Hx. eexists. split; reflexivity.
  - constructor.
    + intros f ps E. injection E as <- _. exact N.
    + intros k f ps E G. injection E as <-. cbn in G. injection G as <- _. apply C89_elementwise.
Qed.

(** Batch normalisation in training mode, which [select_network] configures, mixes the samples: a network with it gives one
    sample different outputs depending on the rest of the batch. *)
Definition mixing_net : mlp_args :=
  mkMLP "baseline" (Int 1) 1 1 0 1 2 None None None true None None None None None (Some (LazyBatchNorm1d true bn_fresh)) false None "uniform" 0.
Definition two_samples (u v : R) : tensor R := mkT [2; 1]%nat (fun ix => match ix with 0%nat :: _ => u | _ => v end).
Lemma damped_inj e a b : 0 < e -> 0 < a -> 0 < b -> a / sqrt (a ^ 2 + e) = b / sqrt (b ^ 2 + e) -> a = b.
Proof.
  intros He Ha Hb E. assert (Q : forall c, 0 < c -> 0 < sqrt (c ^ 2 + e) /\ (sqrt (c ^ 2 + e)) ^ 2 = c ^ 2 + e).
  { intros c Hc. split; [apply sqrt_lt_R0; nra|apply pow2_sqrt; nra]. }
  destruct (Q a Ha) as (Pa & Sa). destruct (Q b Hb) as (Pb & Sb).
  assert (E' : a * sqrt (b ^ 2 + e) = b * sqrt (a ^ 2 + e)).
  { apply Rmult_eq_reg_r with (/ (sqrt (a ^ 2 + e) * sqrt (b ^ 2 + e))); [|apply Rinv_neq_0_compat; nra].
    transitivity (a / sqrt (a ^ 2 + e)); [field; lra|]. rewrite E. field; lra. }
  assert (E2 : a ^ 2 * (b ^ 2 + e) = b ^ 2 * (a ^ 2 + e)) by (rewrite <- Sa, <- Sb; rewrite <- !Rpow_mult_distr; now rewrite E').
  assert (E3 : e * ((a - b) * (a + b)) = 0) by (transitivity (a ^ 2 * (b ^ 2 + e) - b ^ 2 * (a ^ 2 + e)); [ring|rewrite E2; ring]).
  apply Rmult_integral in E3. destruct E3 as [E3|E3]; [lra|]. apply Rmult_integral in E3. destruct E3; lra.
Qed.
Theorem C89_batch_norm_training_refuted : exists net h,
  HighOrderMLP (fun _ _ => 1) mixing_net [] = Ok (net, h) /\
  forall u s t, 0 < s -> 0 < t -> s <> t ->
  exists y y', call h net (two_samples u (u - s)) = Ok y /\ call h net (two_samples u (u - t)) = Ok y' /\
    shape y = [2; 1]%nat /\ shape y' = [2; 1]%nat /\ at_ y [0; 0]%nat <> at_ y' [0; 0]%nat.
Proof.
  unfold HighOrderMLP, mixing_net, dropout_list, alloc, mthen. cbn. destruct (Rlt_dec 0 0) as [C|_]; [lra|]. destruct (Rlt_dec 1 0) as [C|_]; [lra|].
  eexists _, _. split; [reflexivity|]. intros u s t Hs Ht N.
  eexists _, _. split; [reflexivity|]. split; [reflexivity|]. split; [reflexivity|]. split; [reflexivity|].
  cbn. unfold batch_var, batch_mean, over_batch. cbn.
  match goal with |- ?a <> ?b => replace a with ((s / 2) / sqrt ((s / 2) ^ 2 + 1 / 100000) + 1); [replace b with ((t / 2) / sqrt ((t / 2) ^ 2 + 1 / 100000) + 1)|] end.
  - intros E. assert (E' : s / 2 / sqrt ((s / 2) ^ 2 + 1 / 100000) = t / 2 / sqrt ((t / 2) ^ 2 + 1 / 100000)) by lra.
    apply damped_inj in E'; lra.
  - match goal with |- _ = 0 + (?d / sqrt (?v + _) * 1 + 0) * 1 + 1 => replace v with ((t / 2) ^ 2) by field; replace d with (t / 2) by field end. ring.
  - match goal with |- _ = 0 + (?d / sqrt (?v + _) * 1 + 0) * 1 + 1 => replace v with ((s / 2) ^ 2) by field; replace d with (s / 2) by field end. ring.
Qed.
Print Assumptions C89_batch_norm_training_refuted.
