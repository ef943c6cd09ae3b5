(** * How large the output of a layer can get, and how well layers approximate functions (C79-C81). *)
From Coq Require Import Reals ZArith List Lia Lra Psatz.
From Coquelicot Require Import Coquelicot.
From Verif Require Import Spec Tensor Utils LagrangePolynomial Basis PolynomialLayers Observe
  SumFacts TensorFacts LagrangeFacts LayerFacts SegmentFacts LayerProofs LebesgueFacts.
Import ListNotations.
Local Open Scope R_scope.

(** ** C79: bounded weights bound the output *)
Lemma wf_weight l o i s k : held l -> (o < pw_out l)%nat -> (i < pw_in l)%nat -> (s < pw_segments l)%nat -> (k < pw_n l)%nat ->
  valid (shape (pw_w l)) [o; i; weight_pos (pw_cls l) (pw_n l) s k].
Proof.
  intros H Ho Hi Hs Hk. apply held_wf in H. unfold pw_wf in H. destruct H as (Hn & HS & Hw).
  rewrite weight_pos_eq.
  assert (W := weight_index_lt (pw_cls l) (pw_n l) (pw_segments l) s k Hn Hs Hk).
  match goal with |- valid ?s _ => replace s with [pw_out l; pw_in l; pw_num_weights (pw_cls l) (pw_n l) (pw_segments l)] by (symmetry; apply Hw) end.
  repeat constructor; auto.
Qed.

Lemma local_range S s x : (1 <= S)%nat -> in_segment S s x -> -1 <= x <= 1 -> -1 <= seg_local S s x <= 1.
Proof.
  intros HS (Hs & L & R) Hx. assert (P := INR_pos S HS). unfold seg_local.
  assert (A : knot S s <= x).
  { destruct L as [-> | L]; [rewrite knot_0; lra|auto]. }
  assert (B : x <= knot S s + 2 / INR S).
  { rewrite <- knot_succ by auto. destruct R as [E|R]; [|lra]. rewrite <- E, knot_S by auto. lra. }
  split; [nra|].
  apply (Rmult_le_compat_l (INR S)) in B; [|lra].
  replace (INR S * (knot S s + 2 / INR S)) with (INR S * knot S s + 2) in B by (field; lra). lra.
Qed.

(** Inputs of a layer that stay in [[-1,1]] after the periodic folding. *)
Definition inputs_in_range (p : option R) (n : nat) (v : nat -> R) : Prop :=
  match p with None => forall i, (i < n)%nat -> -1 <= v i <= 1 | Some p => 0 < p <= 2 end.

Lemma folded_range p n v i : inputs_in_range p n v -> (i < n)%nat -> -1 <= apply_periodicity p (v i) <= 1.
Proof.
  unfold inputs_in_range. destruct p as [p|]; cbn; intros H Hi; [|auto].
  pose proof (make_periodic_range (v i) p ltac:(lra)). lra.
Qed.

Lemma link_interp l o i x : held l -> pw_length l = 2 -> exists s, in_segment (pw_segments l) s x /\
  link0 l o i x = interp (pw_n l) 2 (fun k => at_ (pw_w l) [o; i; weight_pos (pw_cls l) (pw_n l) s k]) (seg_local (pw_segments l) s x).
Proof.
  intros H HL. pose proof (held_wf l H) as (Hn & HS & _).
  exists (seg l x). split; [now apply seg_in|].
  apply link0_spec; auto; [now apply seg_in|]. now apply interp_interpolates.
Qed.

Theorem C79_bounded_weights_bound_output : forall l W v o,
  held l -> pw_length l = 2 -> sum_class (pw_cls l) -> (2 <= pw_n l)%nat -> (o < pw_out l)%nat ->
  (forall i p, valid (shape (pw_w l)) [o; i; p] -> Rabs (at_ (pw_w l) [o; i; p]) <= W) ->
  inputs_in_range (pw_periodicity l) (pw_in l) v ->
  Rabs (layer_out l v o) <= INR (pw_in l) * (2 * INR (pw_n l - 1) * W).
Proof.
  intros l W v o H HL Hc Hn Ho HW Hv. rewrite layer_out_sum by auto.
  eapply Rle_trans; [apply rsum_abs|]. rewrite <- rsum_const. apply rsum_le. intros i Hi.
  unfold link. destruct (link_interp l o i (apply_periodicity (pw_periodicity l) (v i)) H HL) as (s & Hs & ->).
  apply interp_bound; auto.
  - intros k Hk. apply HW. apply wf_weight; auto. apply Hs.
  - apply local_range; auto; [apply held_wf in H; apply H|]. now apply folded_range with (n := pw_in l).
Qed.
Print Assumptions C79_bounded_weights_bound_output.

(** With one or two nodes per segment the weights themselves are the bounds. *)
Theorem C79_linear_pieces_stay_between_weights : forall l m M v o,
  held l -> pw_length l = 2 -> sum_class (pw_cls l) -> (pw_n l <= 2)%nat -> (o < pw_out l)%nat ->
  (forall i p, valid (shape (pw_w l)) [o; i; p] -> m <= at_ (pw_w l) [o; i; p] <= M) ->
  inputs_in_range (pw_periodicity l) (pw_in l) v ->
  INR (pw_in l) * m <= layer_out l v o <= INR (pw_in l) * M.
Proof.
  intros l m M v o H HL Hc Hn Ho HW Hv. rewrite layer_out_sum by auto.
  assert (B : forall i, (i < pw_in l)%nat -> m <= link l o i (v i) <= M).
  { intros i Hi. pose proof (held_wf l H) as (Hn1 & HS & _).
    unfold link. destruct (link_interp l o i (apply_periodicity (pw_periodicity l) (v i)) H HL) as (s & Hs & E). rewrite E.
    pose proof (local_range _ s _ HS Hs (folded_range _ _ v i Hv Hi)) as T.
    set (w := fun k => at_ (pw_w l) [o; i; weight_pos (pw_cls l) (pw_n l) s k]).
    assert (V : forall k, (k < pw_n l)%nat -> m <= w k <= M) by (intros; apply HW, wf_weight; auto; apply Hs).
    clearbody w.
    assert (C : pw_n l = 1%nat \/ pw_n l = 2%nat) by lia. destruct C as [C|C]; rewrite C in *.
    - rewrite (interp_ext 1 2 w (fun _ => w 0%nat)) by (intros j Hj; now replace j with 0%nat by lia).
      rewrite interp_const by (lra || lia). auto.
    - rewrite interp_two. pose proof (V 0%nat ltac:(lia)). pose proof (V 1%nat ltac:(lia)).
      set (t := seg_local _ _ _) in *. split; nra. }
  rewrite <- !rsum_const. split; apply rsum_le; intros; now apply B.
Qed.
Print Assumptions C79_linear_pieces_stay_between_weights.

(** Product units. *)
Theorem C79_bounded_weights_bound_product : forall l W v o,
  held l -> pw_length l = 2 -> ~ sum_class (pw_cls l) -> (2 <= pw_n l)%nat -> (o < pw_out l)%nat ->
  (forall i p, valid (shape (pw_w l)) [o; i; p] -> Rabs (at_ (pw_w l) [o; i; p]) <= W) ->
  inputs_in_range (pw_periodicity l) (pw_in l) v ->
  Rabs (1 + layer_out l v o) <= (1 + 2 * INR (pw_n l - 1) * W) ^ pw_in l.
Proof.
  intros l W v o H HL Hc Hn Ho HW Hv. rewrite layer_out_eq by auto.
  assert (Ha : alpha_of (pw_cls l) = Some 1) by (unfold sum_class in Hc; destruct (pw_cls l); cbn; tauto).
  rewrite Ha. cbn [combine_links]. replace (1 - 1) with 0 by ring. rewrite Rmult_0_l, Rplus_0_r.
  replace (1 + (_ - 1)) with (rprod (pw_in l) (fun i => link l o i (v i) + 1)) by ring.
  assert (B : forall i, (i < pw_in l)%nat -> Rabs (link l o i (v i) + 1) <= 1 + 2 * INR (pw_n l - 1) * W).
  { intros i Hi. eapply Rle_trans; [apply Rabs_triang|]. rewrite (Rabs_pos_eq 1) by lra.
    rewrite Rplus_comm. apply Rplus_le_compat_l.
    unfold link. destruct (link_interp l o i (apply_periodicity (pw_periodicity l) (v i)) H HL) as (s & Hs & ->).
    apply interp_bound; auto.
    - intros k Hk. apply HW. apply wf_weight; auto. apply Hs.
    - apply local_range; auto; [apply held_wf in H; apply H|]. now apply folded_range with (n := pw_in l). }
  generalize dependent (pw_in l). intros m _ B. induction m; cbn [rprod pow]; [rewrite Rabs_pos_eq; lra|].
  rewrite Rabs_mult, Rmult_comm. apply Rmult_le_compat; try apply Rabs_pos; [apply B; lia|]. apply IHm. intros; apply B; lia.
Qed.
Print Assumptions C79_bounded_weights_bound_product.

(** Single polynomial layers. *)
Theorem C79_polynomial_layer : forall n I O mag per draw w x B W,
  (2 <= n)%nat -> shape w = [O; I; n] -> shape x = [B; I] ->
  (forall ix, valid (shape w) ix -> Rabs (at_ w ix) <= W) ->
  (forall b, (b < B)%nat -> inputs_in_range per I (row x b)) ->
  exists y, Function_forward (with_fw (Polynomial n I O 2 mag per draw) w) x = Ok y /\ shape y = [B; O] /\
    forall b o, (b < B)%nat -> (o < O)%nat -> Rabs (at_ y [b; o]) <= INR I * (2 * INR (n - 1) * W).
Proof.
  intros n I O mag per draw w x B W Hn Hw Hx HW Hv.
  destruct (function_spec n (lb_basis (get_lagrange_basis n 2)) per w x B I O ltac:(lia) Hw Hx) as (y & E & Hs & Hy).
  exists y. split; [exact E|]. split; [exact Hs|]. intros b o Hb Ho. rewrite Hy by auto.
  eapply Rle_trans; [apply rsum_abs|]. rewrite <- rsum_const. apply rsum_le. intros i Hi.
  change (Rabs (interp n 2 (fun k => at_ w [o; i; k]) (apply_periodicity per (row x b i))) <= 2 * INR (n - 1) * W).
  apply interp_bound; auto.
  - intros k Hk. apply HW. rewrite Hw. repeat constructor; auto.
  - now apply folded_range with (n := I), Hi; apply Hv.
Qed.
Print Assumptions C79_polynomial_layer.

(** The weights alone are no bound: with three nodes the function rises above all of them. *)
Definition overshoot : piecewise :=
  let l := new_piecewise PiecewisePolynomial 3 1 1 1 2 1 None (fun _ _ => 0) in
  with_w l (mkT (shape (pw_w l)) (fun ix => if Nat.eqb (nth 2 ix 0%nat) 0 then -1 else 1)).
Example overshoot_held : held overshoot.
Proof. apply with_w_held; [apply new_held; lia|reflexivity]. Qed.

Theorem C79_weights_are_no_bound_refuted :
  held overshoot /\ pw_length overshoot = 2 /\ sum_class (pw_cls overshoot) /\
  (forall ix, Rabs (at_ (pw_w overshoot) ix) <= 1) /\
  layer_out overshoot (fun _ => 1/2) 0 = 5/4.
Proof.
  repeat split; auto.
  - apply overshoot_held.
  - now left.
  - intros ix. cbn. destruct (Nat.eqb (nth 2 ix 0%nat) 0); [rewrite Rabs_left|rewrite Rabs_pos_eq]; lra.
  - assert (S0 : in_segment 1 0 (1/2)) by (repeat split; [lia|now left|now left]).
    rewrite layer_out_sum by (apply overshoot_held || (now left) || (cbn; lia)).
    change (pw_in overshoot) with 1%nat. cbn [rsum]. rewrite Rplus_0_l.
    change (link overshoot 0 0 (1/2)) with (link0 overshoot 0 0 (1/2)).
    rewrite (link0_spec overshoot 0 0 0 (1/2) (fun x => 1 + x - x ^ 2)); [|apply overshoot_held|reflexivity|exact S0|].
    + change (pw_segments overshoot) with 1%nat. unfold seg_local, knot. simpl. field.
    + split.
      * exists (fun k => if Nat.eqb k 2 then -1 else 1). intros x. simpl. ring.
      * intros k Hk. change (pw_n overshoot) with 3%nat in *.
        assert (K : (k = 0 \/ k = 1 \/ k = 2)%nat) by lia. unfold lobatto. cbn [Nat.eqb Nat.sub].
        destruct K as [-> | [-> | ->]]; cbn -[INR].
        -- replace (INR 0 * PI / INR 2) with 0 by (simpl; field). rewrite cos_0. ring.
        -- replace (INR 1 * PI / INR 2) with (PI / 2) by (simpl; field). rewrite cos_PI2. ring.
        -- replace (INR 2 * PI / INR 2) with PI by (simpl; field). rewrite cos_PI. ring.
Qed.
Print Assumptions C79_weights_are_no_bound_refuted.

Example C79_case : inputs_in_range (pw_periodicity overshoot) (pw_in overshoot) (fun _ => 1/2) /\
  Rabs (layer_out overshoot (fun _ => 1/2) 0) <= 1 * (2 * 2 * 1).
Proof.
  assert (A : inputs_in_range (pw_periodicity overshoot) (pw_in overshoot) (fun _ => 1/2)) by (intros i Hi; lra).
  split; auto.
  pose proof (C79_bounded_weights_bound_output overshoot 1 (fun _ => 1/2) 0 overshoot_held eq_refl (or_introl eq_refl)
    ltac:(cbn; lia) ltac:(cbn; lia) (fun i p _ => proj1 (proj2 (proj2 (proj2 C79_weights_are_no_bound_refuted))) [0%nat; i; p]) A) as B.
  simpl in B. simpl. lra.
Qed.
