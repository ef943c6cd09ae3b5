(** * What the function of a layer says about its weights (C95). *)
From Coq Require Import Reals Lra ZArith List Lia Arith.
From Verif Require Import Spec Tensor Utils LagrangePolynomial Basis PolynomialLayers Observe SumFacts TensorFacts LagrangeFacts LayerFacts SegmentFacts LayerProofs RefineFacts.
Import ListNotations.
Local Open Scope R_scope.

Definition in_box (m : nat) (v : nat -> R) : Prop := forall i, (i < m)%nat -> -1 <= v i <= 1.

Lemma rsum_update m (f g : nat -> R) i : (i < m)%nat -> (forall j, (j < m)%nat -> j <> i -> f j = g j) -> rsum m f - rsum m g = f i - g i.
Proof.
  intros Hi H. induction m; [lia|]. cbn [rsum]. destruct (Nat.eq_dec i m) as [->|N].
  - rewrite (rsum_ext m f g); [lra|]. intros j Hj. apply H; lia.
  - rewrite (H m) by lia. enough (rsum m f - rsum m g = f i - g i) by lra. apply IHm; [lia|]. intros j Hj. apply H. lia.
Qed.

(** [n] distinct points of [-1,1). *)
Definition spread (n k : nat) : R := INR k / INR n - 1/2.
Lemma spread_in n k : (k < n)%nat -> -1 <= spread n k < 1.
Proof.
  intros H. unfold spread. assert (0 <= INR k) by apply pos_INR. assert (INR k < INR n) by now apply lt_INR. assert (0 < / INR n) by (apply Rinv_0_lt_compat; lra).
  assert (0 <= INR k / INR n) by (apply Rmult_le_pos; lra). assert (INR k / INR n < 1) by (unfold Rdiv; apply Rmult_lt_reg_r with (INR n); [lra|]; rewrite Rmult_assoc, Rinv_l; lra). lra.
Qed.
Lemma spread_distinct n : distinct n (spread n).
Proof.
  intros i j Hi Hj N E. unfold spread in E. apply N, INR_eq. assert (0 < INR n) by (apply lt_0_INR; lia).
  apply Rmult_eq_reg_r with (/ INR n); [|apply Rinv_neq_0_compat; lra]. unfold Rdiv in E. lra.
Qed.
Lemma seg_global_box S s t : (1 <= S)%nat -> (s < S)%nat -> -1 <= t < 1 -> -1 <= seg_global S s t <= 1.
Proof.
  intros HS Hs Ht. assert (P := INR_pos S HS). unfold seg_global, knot.
  assert (Q : INR s + 1 <= INR S) by (rewrite <- S_INR; apply le_INR; lia). assert (0 <= INR s) by apply pos_INR. assert (0 < / INR S) by now apply Rinv_0_lt_compat.
  replace (-1 + 2 * INR s / INR S + (t + 1) / INR S) with (-1 + (2 * INR s + (t + 1)) * / INR S) by (field; lra).
  assert (0 <= (2 * INR s + (t + 1)) * / INR S) by (apply Rmult_le_pos; lra).
  assert ((2 * INR s + (t + 1)) * / INR S <= 2) by (apply Rmult_le_reg_r with (INR S); [lra|]; rewrite Rmult_assoc, Rinv_l; lra). lra.
Qed.

Section Two.
Variables (l : piecewise) (w w' : tensor R).
Hypothesis (H : held l) (HL : pw_length l = 2) (Hp : pw_periodicity l = None) (Hc : sum_class (pw_cls l)).
Hypothesis (Sw : shape w = shape (pw_w l)) (Sw' : shape w' = shape (pw_w l)).
Local Notation n := (pw_n l).
Local Notation Sg := (pw_segments l).

Lemma out_sum u o v : shape u = shape (pw_w l) -> (o < pw_out l)%nat -> layer_out (with_w l u) v o = rsum (pw_in l) (fun i => link0 (with_w l u) o i (v i)).
Proof.
  intros Su Ho. rewrite layer_out_sum by (auto; apply with_w_held; auto). apply rsum_ext. intros i Hi. unfold link. cbn [with_w pw_periodicity]. now rewrite Hp.
Qed.
Lemma link0_at u o i s t : shape u = shape (pw_w l) -> (s < Sg)%nat -> -1 <= t < 1 ->
  link0 (with_w l u) o i (seg_global Sg s t) = interp n 2 (fun k => at_ u [o; i; weight_pos (pw_cls l) n s k]) t.
Proof.
  intros Su Hs Ht. pose proof (held_wf l H) as (Hn & HS & _).
  rewrite (link0_spec (with_w l u) o i s _ (interp n 2 (fun k => at_ u [o; i; weight_pos (pw_cls l) n s k]))); auto.
  - cbn [with_w pw_segments]. now rewrite seg_local_global.
  - now apply with_w_held.
  - now apply in_segment_global.
  - cbn [with_w pw_w pw_cls pw_n]. now apply interp_interpolates.
Qed.

Lemma same_links : (forall v o, in_box (pw_in l) v -> (o < pw_out l)%nat -> layer_out (with_w l w) v o = layer_out (with_w l w') v o) ->
  forall o i x, (o < pw_out l)%nat -> (i < pw_in l)%nat -> -1 <= x <= 1 ->
    link0 (with_w l w') o i x - link0 (with_w l w) o i x = link0 (with_w l w') o i 0 - link0 (with_w l w) o i 0.
Proof.
  intros E o i x Ho Hi Hx. set (v := fun j => if Nat.eqb j i then x else 0).
  assert (E1 := E v o). assert (E2 := E (fun _ => 0) o). rewrite !out_sum in E1, E2 by auto.
  assert (V : forall u, rsum (pw_in l) (fun j => link0 (with_w l u) o j (v j)) - rsum (pw_in l) (fun j => link0 (with_w l u) o j 0) = link0 (with_w l u) o i x - link0 (with_w l u) o i 0).
  { intros u. rewrite (rsum_update _ _ _ i); [unfold v; now rewrite Nat.eqb_refl|exact Hi|]. intros j Hj N. unfold v. destruct (Nat.eqb_spec j i); [contradiction|reflexivity]. }
  pose proof (V w). pose proof (V w').
  assert (B1 : in_box (pw_in l) v) by (intros j Hj; unfold v; destruct (Nat.eqb j i); lra). assert (B2 : in_box (pw_in l) (fun _ => 0)) by (intros j Hj; lra).
  specialize (E1 B1 Ho). specialize (E2 B2 Ho). cbv beta in *. lra.
Qed.

Lemma links_weights d : (forall o i x, (o < pw_out l)%nat -> (i < pw_in l)%nat -> -1 <= x <= 1 -> link0 (with_w l w') o i x = link0 (with_w l w) o i x + d o i) ->
  forall o i p, valid (shape w) [o; i; p] -> at_ w' [o; i; p] = at_ w [o; i; p] + d o i.
Proof.
  intros E o i p Hv. pose proof (held_wf l H) as (Hn & HS & _ & _ & _ & W6). rewrite Sw, W6 in Hv. cbn [valid] in Hv. destruct Hv as (Ho & Hi & Hpp & _).
  destruct (pos_cover (pw_cls l) (pw_n l) (pw_segments l) p Hn HS Hpp) as (s & k & Hs & Hk & ->).
  set (f := fun u t => interp n 2 (fun k => at_ u [o; i; weight_pos (pw_cls l) n s k]) t).
  assert (Eq : forall t, f w' t = f w t + d o i).
  { apply (poly_unique n (f w') (fun t => f w t + d o i) (spread n)).
    - apply interp_poly.
    - apply poly_lt_plus; [apply interp_poly|now apply poly_lt_const].
    - apply spread_distinct.
    - intros j Hj. pose proof (spread_in n j Hj) as Sj. unfold f. rewrite <- !link0_at by auto. apply E; auto. now apply seg_global_box. }
  specialize (Eq (node n 2 k)). unfold f in Eq. now rewrite !interp_node in Eq by (auto; lra).
Qed.

Lemma shifted_out d : (forall o i p, valid (shape w) [o; i; p] -> at_ w' [o; i; p] = at_ w [o; i; p] + d o i) ->
  forall v o, (o < pw_out l)%nat -> layer_out (with_w l w') v o = layer_out (with_w l w) v o + rsum (pw_in l) (d o).
Proof.
  intros E v o Ho. pose proof (held_wf l H) as (Hn & HS & _ & _ & _ & W6).
  rewrite !layer_out_sum by (auto; apply with_w_held; auto). cbn [with_w pw_in]. rewrite <- rsum_plus. apply rsum_ext. intros i Hi.
  rewrite !link_with_w. cbv zeta. set (x := apply_periodicity _ _). set (t := x_local _ _ _).
  rewrite (interp_ext _ _ _ (fun k => at_ w [o; i; weight_pos (pw_cls l) (pw_n l) (seg l x) k] + 1 * d o i)).
  - rewrite interp_linear, interp_const by (auto; lra). ring.
  - intros k Hk. rewrite E, Rmult_1_l; [reflexivity|]. rewrite Sw, W6. cbn [valid]. repeat split; auto. rewrite weight_pos_eq. apply weight_index_lt; auto. now apply seg_lt.
Qed.
End Two.

(** ** C95 *)

(** Two weight tensors give the same outputs on [-1,1] exactly if they differ by a number per link, these numbers adding up to
    zero at every output. *)
Theorem C95_weights_determined : forall l w w', held l -> pw_length l = 2 -> pw_periodicity l = None -> sum_class (pw_cls l) ->
  shape w = shape (pw_w l) -> shape w' = shape (pw_w l) ->
  ((forall v o, in_box (pw_in l) v -> (o < pw_out l)%nat -> layer_out (with_w l w) v o = layer_out (with_w l w') v o) <->
   (exists d, (forall o, (o < pw_out l)%nat -> rsum (pw_in l) (d o) = 0) /\
      forall o i p, valid (shape w) [o; i; p] -> at_ w' [o; i; p] = at_ w [o; i; p] + d o i)).
Proof.
  intros l w w' H HL Hp Hc Sw Sw'. split.
  - intros E. exists (fun o i => link0 (with_w l w') o i 0 - link0 (with_w l w) o i 0). split.
    + intros o Ho. rewrite rsum_minus. pose proof (E (fun _ => 0) o ltac:(intros i Hi; lra) Ho) as Q. rewrite !(out_sum l H Hp Hc) in Q by auto. cbv beta in Q. lra.
    + apply (links_weights l w w' H HL Sw Sw'). intros o i x Ho Hi Hx. pose proof (same_links l w w' H Hp Hc Sw Sw' E o i x Ho Hi Hx). lra.
  - intros (d & D0 & D) v o _ Ho. rewrite (shifted_out l w w' H Hc Sw Sw' d D v o Ho), D0 by exact Ho. ring.
Qed.
Print Assumptions C95_weights_determined.

(** With one input the function determines the weights: no weight is redundant. *)
Theorem C95_one_input : forall l w w', held l -> pw_length l = 2 -> pw_periodicity l = None -> sum_class (pw_cls l) -> pw_in l = 1%nat ->
  shape w = shape (pw_w l) -> shape w' = shape (pw_w l) ->
  (forall v o, in_box 1 v -> (o < pw_out l)%nat -> layer_out (with_w l w) v o = layer_out (with_w l w') v o) ->
  forall ix, valid (shape w) ix -> at_ w' ix = at_ w ix.
Proof.
  intros l w w' H HL Hp Hc H1 Sw Sw' E ix Hix. rewrite <- H1 in E. destruct (proj1 (C95_weights_determined l w w' H HL Hp Hc Sw Sw') E) as (d & D0 & D).
  pose proof (held_wf l H) as (_ & _ & _ & _ & _ & W6). rewrite Sw, W6 in Hix. destruct ix as [|o [|i [|p [|? ?]]]]; cbn [valid] in Hix; try tauto. rewrite D by (rewrite Sw, W6; exact Hix).
  destruct Hix as (Ho & Hi & _). specialize (D0 o Ho). rewrite H1 in Hi, D0. cbn in D0. replace i with 0%nat by lia. lra.
Qed.
Print Assumptions C95_one_input.

(** Layers that agree on [-1,1] agree everywhere. *)
Theorem C95_agreement_extends : forall l w w', held l -> pw_length l = 2 -> pw_periodicity l = None -> sum_class (pw_cls l) ->
  shape w = shape (pw_w l) -> shape w' = shape (pw_w l) ->
  (forall v o, in_box (pw_in l) v -> (o < pw_out l)%nat -> layer_out (with_w l w) v o = layer_out (with_w l w') v o) ->
  forall v o, (o < pw_out l)%nat -> layer_out (with_w l w) v o = layer_out (with_w l w') v o.
Proof.
  intros l w w' H HL Hp Hc Sw Sw' E v o Ho. destruct (proj1 (C95_weights_determined l w w' H HL Hp Hc Sw Sw') E) as (d & D0 & D).
  rewrite (shifted_out l w w' H Hc Sw Sw' d D v o Ho), D0 by exact Ho. ring.
Qed.
Print Assumptions C95_agreement_extends.

Example C95_case : let l := new_piecewise PiecewiseDiscontinuousPolynomial 3 2 1 4 2 1 None (fun _ _ => 1/2) in
  held l /\ pw_length l = 2 /\ pw_periodicity l = None /\ sum_class (pw_cls l) /\
  forall v, layer_out (with_w l (mkT (shape (pw_w l)) (fun ix => INR (nth 2 ix 0%nat) + INR (nth 1 ix 0%nat)))) v 0 =
            layer_out (with_w l (mkT (shape (pw_w l)) (fun ix => INR (nth 2 ix 0%nat) + (1 - INR (nth 1 ix 0%nat))))) v 0.
Proof.
  intros l. assert (H : held l) by (apply new_held; lia). split; [exact H|]. split; [reflexivity|]. split; [reflexivity|]. split; [right; reflexivity|].
  assert (Sc : sum_class (pw_cls l)) by (right; reflexivity). intros v.
  match goal with |- layer_out (with_w l ?u) _ _ = layer_out (with_w l ?u') _ _ =>
    apply (C95_agreement_extends l u u' H eq_refl eq_refl Sc eq_refl eq_refl); [|cbn; lia]; apply (C95_weights_determined l u u' H eq_refl eq_refl Sc eq_refl eq_refl) end.
  exists (fun o i => if Nat.eqb i 0 then 1 else -1). split; [intros; cbn; lra|].
  intros o i p Hv. cbn [at_ nth shape] in *. cbn in Hv. destruct i as [|[|i]]; cbn [INR Nat.eqb]; try lia; lra.
Qed.
