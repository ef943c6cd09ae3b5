(** * Layers whose weights sample a function approximate it (C80); two-node layers are linear (C81). *)
From Coq Require Import Reals ZArith List Lia Lra Psatz.
From Coquelicot Require Import Coquelicot.
From Verif Require Import Spec Tensor Utils LagrangePolynomial Basis PolynomialLayers Observe
  SumFacts TensorFacts LagrangeFacts LayerFacts SegmentFacts LayerProofs LebesgueFacts Prop_Bounds.
Import ListNotations.
Local Open Scope R_scope.

(** The weights of output [o] are the values of [f i] at the nodes of the link of input [i]. *)
Definition samples (l : piecewise) (o : nat) (f : nat -> R -> R) : Prop :=
  forall i s k, (i < pw_in l)%nat -> (s < pw_segments l)%nat -> (k < pw_n l)%nat ->
    at_ (pw_w l) [o; i; weight_pos (pw_cls l) (pw_n l) s k] = f i (seg_global (pw_segments l) s (lobatto (pw_n l) k)).

Lemma interp_bound1 n v W x : (1 <= n)%nat -> (forall k, (k < n)%nat -> Rabs (v k) <= W) -> -1 <= x <= 1 ->
  Rabs (interp n 2 v x) <= (2 * INR n - 1) * W.
Proof.
  intros Hn Hv Hx. pose proof (Rabs_pos (v 0%nat)). pose proof (Hv 0%nat Hn).
  assert (C : n = 1%nat \/ (2 <= n)%nat) by lia. destruct C as [-> | C].
  - rewrite (interp_ext 1 2 v (fun _ => v 0%nat)) by (intros j Hj; now replace j with 0%nat by lia).
    rewrite interp_const by (lra || lia). simpl. lra.
  - pose proof (interp_bound n v W x C Hv Hx) as B. rewrite minus_INR in B by lia. simpl (INR 1) in B. nra.
Qed.

Lemma seg_global_range S s t : (1 <= S)%nat -> -1 <= t <= 1 -> knot S s <= seg_global S s t <= knot S (Datatypes.S s).
Proof.
  intros HS Ht. assert (P := INR_pos S HS). rewrite knot_succ by auto. unfold seg_global.
  assert (0 <= / INR S) by (apply Rlt_le, Rinv_0_lt_compat; auto). unfold Rdiv. split; nra.
Qed.

Lemma seg_global_local S s x : (1 <= S)%nat -> seg_global S s (seg_local S s x) = x.
Proof. intros HS. assert (P := INR_pos S HS). unfold seg_global, seg_local. field. lra. Qed.

Lemma lobatto_range n k : (1 <= n)%nat -> (k < n)%nat -> -1 <= lobatto n k <= 1.
Proof. intros Hn Hk. rewrite lobatto_cheb by auto. now apply cheb_range. Qed.

Lemma approx_link n S s f p E x : (1 <= n)%nat -> (1 <= S)%nat -> in_segment S s x -> -1 <= x <= 1 -> poly_lt n p ->
  (forall y, knot S s <= y <= knot S (Datatypes.S s) -> Rabs (f y - p y) <= E) ->
  Rabs (interp n 2 (fun k => f (seg_global S s (lobatto n k))) (seg_local S s x) - f x) <= 2 * INR n * E.
Proof.
  intros Hn HS Hs Hx Hp HE. assert (P := INR_pos S HS).
  pose proof (local_range S s x HS Hs Hx) as T. set (t := seg_local S s x) in *.
  assert (Ex : seg_global S s t = x) by now apply seg_global_local.
  set (g := fun t => p (seg_global S s t)).
  assert (Hg : poly_lt n g).
  { apply (poly_lt_ext _ (fun t => p (/ INR S * t + (knot S s + / INR S)))); [|now apply poly_lt_comp_affine].
    intros y. unfold g, seg_global. f_equal. field. lra. }
  assert (Eg : interp n 2 (fun k => g (lobatto n k)) t = p x).
  { rewrite (interp_ext _ _ _ (fun k => g (node n 2 k))) by (intros; now rewrite node_2, <- lobatto_cheb).
    rewrite interp_exact by (auto; lra). unfold g. now rewrite Ex. }
  assert (D : interp n 2 (fun k => f (seg_global S s (lobatto n k))) t
     = interp n 2 (fun k => f (seg_global S s (lobatto n k)) - p (seg_global S s (lobatto n k))) t + p x).
  { rewrite <- Eg. unfold interp, g. rewrite <- rsum_plus. apply rsum_ext. intros. ring. }
  rewrite D.
  assert (B : Rabs (interp n 2 (fun k => f (seg_global S s (lobatto n k)) - p (seg_global S s (lobatto n k))) t) <= (2 * INR n - 1) * E).
  { apply interp_bound1; auto. intros k Hk. apply HE. apply seg_global_range; auto. now apply lobatto_range. }
  assert (C : Rabs (f x - p x) <= E).
  { apply HE. rewrite <- Ex. now apply seg_global_range. }
  replace (_ + p x - f x) with (interp n 2 (fun k => f (seg_global S s (lobatto n k)) - p (seg_global S s (lobatto n k))) t + - (f x - p x)) by ring.
  eapply Rle_trans; [apply Rabs_triang|]. rewrite Rabs_Ropp. lra.
Qed.

(** If on every segment some polynomial of degree < n is within E of f, the layer that samples f at its nodes is within 2 n E of f. *)
Theorem C80_near_best_approximation : forall l o f p E v,
  held l -> pw_length l = 2 -> pw_periodicity l = None -> sum_class (pw_cls l) -> (o < pw_out l)%nat ->
  samples l o f ->
  (forall i s, poly_lt (pw_n l) (p i s)) ->
  (forall i s y, (i < pw_in l)%nat -> (s < pw_segments l)%nat ->
     knot (pw_segments l) s <= y <= knot (pw_segments l) (s + 1) -> Rabs (f i y - p i s y) <= E) ->
  (forall i, (i < pw_in l)%nat -> -1 <= v i <= 1) ->
  Rabs (layer_out l v o - rsum (pw_in l) (fun i => f i (v i))) <= INR (pw_in l) * (2 * INR (pw_n l) * E).
Proof.
  intros l o f p E v H HL Hp Hc Ho Hs Hpol HE Hv. pose proof (held_wf l H) as (Hn & HS & _).
  rewrite layer_out_sum by auto. rewrite <- rsum_minus. eapply Rle_trans; [apply rsum_abs|].
  rewrite <- rsum_const. apply rsum_le. intros i Hi. unfold link. rewrite Hp. cbn [apply_periodicity].
  destruct (link_interp l o i (v i) H HL) as (s & Hin & ->).
  rewrite (interp_ext _ _ _ (fun k => f i (seg_global (pw_segments l) s (lobatto (pw_n l) k)))) by (intros; apply Hs; auto; apply Hin).
  apply approx_link with (p := p i s); auto.
  intros y Hy. apply HE; auto; [apply Hin|]. now rewrite Nat.add_1_r.
Qed.
Print Assumptions C80_near_best_approximation.

Lemma knot_range S s : (1 <= S)%nat -> (s <= S)%nat -> -1 <= knot S s <= 1.
Proof.
  intros HS Hs. pose proof (knot_le S 0 s HS ltac:(lia)). pose proof (knot_le S s S HS Hs).
  rewrite knot_0, knot_S in * by auto. lra.
Qed.

Lemma taylor_sum m (d : nat -> R) h : sum_f_R0 (fun k => h ^ k / INR (fact k) * d k) m = rsum (S m) (fun k => d k / INR (fact k) * h ^ k).
Proof.
  induction m; [simpl; field|]. rewrite tech5, IHm. cbn [rsum]. f_equal. field. apply INR_fact_neq_0.
Qed.

(** h-convergence of order n: for f with n derivatives, the error is at most a constant times (2/S)^n. *)
Theorem C80_order_of_convergence : forall l o f M v,
  held l -> pw_length l = 2 -> pw_periodicity l = None -> sum_class (pw_cls l) -> (o < pw_out l)%nat ->
  samples l o f ->
  (forall i x k, (i < pw_in l)%nat -> -1 <= x <= 1 -> (k <= pw_n l)%nat -> ex_derive_n (f i) k x) ->
  (forall i x, (i < pw_in l)%nat -> -1 <= x <= 1 -> Rabs (Derive_n (f i) (pw_n l) x) <= M) ->
  (forall i, (i < pw_in l)%nat -> -1 <= v i <= 1) ->
  Rabs (layer_out l v o - rsum (pw_in l) (fun i => f i (v i)))
  <= INR (pw_in l) * (2 * INR (pw_n l) * (M / INR (fact (pw_n l)) * (2 / INR (pw_segments l)) ^ pw_n l)).
Proof.
  intros l o f M v H HL Hp Hc Ho Hs Hd HM Hv. pose proof (held_wf l H) as (Hn & HS & _).
  set (S0 := pw_segments l) in *. assert (P := INR_pos S0 HS).
  destruct (pw_n l) as [|m] eqn:En; [lia|].
  set (p := fun i s x => rsum (S m) (fun k => Derive_n (f i) k (knot S0 s) / INR (fact k) * (x - knot S0 s) ^ k)).
  rewrite <- En.
  apply C80_near_best_approximation with (p := p); auto.
  - intros i s. rewrite En. unfold p.
    apply (poly_lt_ext _ (fun x => (fun y => rsum (S m) (fun k => Derive_n (f i) k (knot S0 s) / INR (fact k) * y ^ k)) (1 * x + - knot S0 s))).
    + intros x. apply rsum_ext. intros. f_equal. f_equal. ring.
    + apply (poly_lt_comp_affine (S m) 1 (- knot S0 s) (fun y => rsum (S m) (fun k => Derive_n (f i) k (knot S0 s) / INR (fact k) * y ^ k))).
      eexists. intros. reflexivity.
  - intros i s y Hi Hs' Hy. rewrite Nat.add_1_r in Hy. rewrite En. fold S0 in Hy, Hs'. fold S0.
    pose proof (knot_range S0 s HS ltac:(lia)). pose proof (knot_range S0 (S s) HS ltac:(lia)).
    assert (M0 : 0 <= M) by (eapply Rle_trans; [apply Rabs_pos|apply (HM i 0 Hi); lra]).
    assert (F : 0 < INR (fact (S m))) by apply INR_fact_lt_0.
    assert (Q : 0 <= M / INR (fact (S m)) * (2 / INR S0) ^ S m).
    { apply Rmult_le_pos; [apply Rdiv_le_0_compat; auto|]. apply pow_le, Rdiv_le_0_compat; lra. }
    destruct (Req_dec y (knot S0 s)) as [->|D].
    { unfold p. rewrite rsum_S_l. rewrite rsum_zero.
      - simpl. replace (_ - _) with 0 by field. rewrite Rabs_R0. exact Q.
      - intros k Hk. replace (knot S0 s - knot S0 s) with 0 by ring. simpl (0 ^ S k). ring. }
    destruct (Taylor_Lagrange (f i) m (knot S0 s) y) as (z & Hz & E); [lra| |].
    { intros t Ht k Hk. apply Hd; auto; lra. }
    assert (Ep : sum_f_R0 (fun k => (y - knot S0 s) ^ k / INR (fact k) * Derive_n (f i) k (knot S0 s)) m = p i s y).
    { apply taylor_sum. }
    rewrite E, Ep. replace (_ + _ - _) with ((y - knot S0 s) ^ S m / INR (fact (S m)) * Derive_n (f i) (S m) z) by ring.
    rewrite Rabs_mult. unfold Rdiv at 1. rewrite Rabs_mult, (Rabs_pos_eq (/ _)) by (apply Rlt_le, Rinv_0_lt_compat; auto).
    rewrite (Rabs_pos_eq ((y - _) ^ _)) by (apply pow_le; lra).
    assert (Y : (y - knot S0 s) ^ S m <= (2 / INR S0) ^ S m).
    { apply pow_incr. split; [lra|]. rewrite knot_succ in Hy by auto. lra. }
    assert (DM := HM i z Hi ltac:(lra)). rewrite En in DM || idtac.
    pose proof (Rinv_0_lt_compat _ F). pose proof (Rabs_pos (Derive_n (f i) (S m) z)).
    assert (Y0 : 0 <= (y - knot S0 s) ^ S m) by (apply pow_le; lra).
    replace (M / INR (fact (S m)) * (2 / INR S0) ^ S m) with ((2 / INR S0) ^ S m * / INR (fact (S m)) * M) by (unfold Rdiv; ring).
    apply Rmult_le_compat; auto.
    + apply Rmult_le_pos; lra.
    + apply Rmult_le_compat_r; lra.
Qed.
Print Assumptions C80_order_of_convergence.

(** Lipschitz functions: the error is at most of the order of the segment length. *)
Theorem C80_lipschitz : forall l o f L v,
  held l -> pw_length l = 2 -> pw_periodicity l = None -> sum_class (pw_cls l) -> (o < pw_out l)%nat ->
  samples l o f ->
  (forall i x y, (i < pw_in l)%nat -> -1 <= x <= 1 -> -1 <= y <= 1 -> Rabs (f i x - f i y) <= L * Rabs (x - y)) -> 0 <= L ->
  (forall i, (i < pw_in l)%nat -> -1 <= v i <= 1) ->
  Rabs (layer_out l v o - rsum (pw_in l) (fun i => f i (v i)))
  <= INR (pw_in l) * (2 * INR (pw_n l) * (L * (2 / INR (pw_segments l)))).
Proof.
  intros l o f L v H HL Hp Hc Ho Hs HLip HL0 Hv. pose proof (held_wf l H) as (Hn & HS & _).
  apply C80_near_best_approximation with (p := fun i s _ => f i (knot (pw_segments l) s)); auto.
  - intros i s. now apply poly_lt_const.
  - intros i s y Hi Hs' Hy. rewrite Nat.add_1_r in Hy.
    pose proof (knot_range (pw_segments l) s HS ltac:(lia)). pose proof (knot_range (pw_segments l) (S s) HS ltac:(lia)).
    eapply Rle_trans; [apply HLip; auto; lra|]. apply Rmult_le_compat_l; auto.
    rewrite Rabs_pos_eq by lra. rewrite knot_succ in Hy by auto. lra.
Qed.
Print Assumptions C80_lipschitz.

Lemma uniform_all I (f : nat -> R -> R) eps : (forall i x, (i < I)%nat -> -1 <= x <= 1 -> continuity_pt (f i) x) -> 0 < eps ->
  exists d, 0 < d /\ forall i x y, (i < I)%nat -> -1 <= x <= 1 -> -1 <= y <= 1 -> Rabs (x - y) < d -> Rabs (f i x - f i y) < eps.
Proof.
  intros Hf He. induction I.
  - exists 1. split; [lra|]. intros; lia.
  - destruct IHI as (d & Hd & P); [intros; apply Hf; auto; lia|].
    destruct (@Heine_cor2 (f I) (-1) 1 (fun x Hx => Hf I x ltac:(lia) Hx) (mkposreal eps He)) as (d' & P').
    exists (Rmin d d'). split; [apply Rmin_pos; [auto|apply (cond_pos d')]|].
    intros i x y Hi Hx Hy HD. destruct (Nat.eq_dec i I) as [->|N].
    + apply (P' x y Hx Hy). eapply Rlt_le_trans; [exact HD|apply Rmin_r].
    + apply P; auto; [lia|]. eapply Rlt_le_trans; [exact HD|apply Rmin_l].
Qed.

(** h-convergence: for continuous functions the error tends to zero as segments are added, whatever the number of nodes. *)
Theorem C80_converges : forall n I f eps,
  (forall i x, (i < I)%nat -> -1 <= x <= 1 -> continuity_pt (f i) x) -> 0 < eps ->
  exists S0, forall l o v,
    held l -> pw_length l = 2 -> pw_periodicity l = None -> sum_class (pw_cls l) -> (o < pw_out l)%nat ->
    pw_n l = n -> pw_in l = I -> (S0 <= pw_segments l)%nat -> samples l o f ->
    (forall i, (i < I)%nat -> -1 <= v i <= 1) ->
    Rabs (layer_out l v o - rsum I (fun i => f i (v i))) <= eps.
Proof.
  intros n I f eps Hf He.
  set (C := INR I * (2 * INR n) + 1). assert (C0 : 0 < C) by (unfold C; pose proof (pos_INR I); pose proof (pos_INR n); nra).
  destruct (uniform_all I f (eps / C) Hf ltac:(apply Rdiv_lt_0_compat; lra)) as (d & Hd & P).
  destruct (archimed (2 / d)) as [Ar _]. exists (Z.to_nat (up (2 / d))).
  intros l o v H HL Hp Hc Ho En Ei HS Hs Hv. subst n I. pose proof (held_wf l H) as (Hn & HS1 & _).
  assert (P0 := INR_pos _ HS1).
  assert (D : 2 / INR (pw_segments l) < d).
  { assert (U : 2 / d < INR (pw_segments l)).
    { eapply Rlt_le_trans; [exact Ar|]. rewrite INR_IZR_INZ. apply IZR_le.
      assert (0 < 2 / d) by (apply Rdiv_lt_0_compat; lra).
      assert (0 < IZR (up (2 / d))) by lra. apply lt_IZR in H1. lia. }
    apply (Rmult_lt_reg_r (INR (pw_segments l))); auto.
    replace (2 / INR (pw_segments l) * INR (pw_segments l)) with (d * (2 / d)) by (field; lra).
    apply Rmult_lt_compat_l; auto. }
  eapply Rle_trans; [apply C80_near_best_approximation with (p := fun i s _ => f i (knot (pw_segments l) s)) (E := eps / C); auto|].
  - intros i s. now apply poly_lt_const.
  - intros i s y Hi Hs' Hy. rewrite Nat.add_1_r in Hy.
    pose proof (knot_range (pw_segments l) s HS1 ltac:(lia)). pose proof (knot_range (pw_segments l) (S s) HS1 ltac:(lia)).
    apply Rlt_le, P; auto; [lra|]. rewrite Rabs_pos_eq by lra. rewrite knot_succ in Hy by auto. lra.
  - apply (Rmult_le_reg_r C); auto.
    replace (INR (pw_in l) * (2 * INR (pw_n l) * (eps / C)) * C) with (INR (pw_in l) * (2 * INR (pw_n l)) * eps) by (field; lra).
    unfold C. pose proof (pos_INR (pw_in l)). pose proof (pos_INR (pw_n l)). nra.
Qed.
Print Assumptions C80_converges.

(** Such layers exist, for every class of sum units: continuous ones need two nodes. *)
Lemma node_first n : (2 <= n)%nat -> lobatto n 0 = -1.
Proof. intros. rewrite lobatto_cheb by lia. now apply cheb_first. Qed.
Lemma node_last n : (2 <= n)%nat -> lobatto n (n - 1) = 1.
Proof. intros. rewrite lobatto_cheb by lia. now apply cheb_last. Qed.

Theorem C80_sampling_layers_exist : forall c n I O S (f : nat -> nat -> R -> R),
  sum_class c -> (1 <= n)%nat -> (c = PiecewisePolynomial -> 2 <= n)%nat -> (1 <= I)%nat -> (1 <= O)%nat -> (1 <= S)%nat ->
  exists l, held l /\ pw_length l = 2 /\ pw_periodicity l = None /\ pw_cls l = c /\ pw_n l = n /\ pw_in l = I /\ pw_out l = O /\
    pw_segments l = S /\ forall o, (o < O)%nat -> samples l o (f o).
Proof.
  intros c n I O S f Hc Hn Hn2 HI HO HS.
  set (st := pw_stride c n).
  set (sg := fun p => Nat.min (p / st) (S - 1)).
  set (l0 := new_piecewise c n I O S 2 1 None (fun _ _ => 0)).
  set (w := mkT (shape (pw_w l0)) (fun ix => let p := nth 2 ix 0%nat in
     f (nth 0 ix 0%nat) (nth 1 ix 0%nat) (seg_global S (sg p) (lobatto n (p - sg p * st))))).
  exists (with_w l0 w). split; [apply with_w_held; [now apply new_held|reflexivity]|].
  repeat split.
  intros o Ho i s k Hi Hs Hk. change (pw_segments (with_w l0 w)) with S in *. change (pw_n (with_w l0 w)) with n in *.
  change (pw_cls (with_w l0 w)) with c. rewrite weight_pos_eq. fold st.
  cbn [with_w pw_w w at_ nth]. f_equal.
  assert (Hst : (st = n \/ (st = n - 1 /\ 2 <= n))%nat).
  { unfold st, pw_stride. destruct Hc as [-> | ->]; cbn; [right; split; auto|now left]. }
  assert (Q : (s * st + k = st * s + k)%nat) by lia.
  assert (Z : (k < st \/ (st = n - 1 /\ k = n - 1 /\ 2 <= n))%nat) by lia.
  destruct Z as [Z|(Z1 & Z2 & Z3)].
  - assert (E : ((s * st + k) / st = s)%nat) by (symmetry; apply (Nat.div_unique _ st s k); auto).
    assert (E' : sg (s * st + k)%nat = s) by (unfold sg; rewrite E; lia). rewrite E'.
    f_equal. f_equal. lia.
  - assert (E : ((s * st + k) / st = s + 1)%nat) by (symmetry; apply (Nat.div_unique _ st (s + 1) 0); nia).
    destruct (Nat.eq_dec (s + 1) S) as [L|L].
    + assert (E' : sg (s * st + k)%nat = s) by (unfold sg; rewrite E; lia). rewrite E'. f_equal. f_equal. lia.
    + assert (E' : sg (s * st + k)%nat = (s + 1)%nat) by (unfold sg; rewrite E; lia). rewrite E'.
      replace (s * st + k - (s + 1) * st)%nat with 0%nat by nia.
      rewrite Z2, node_first, node_last by auto. unfold seg_global. rewrite Nat.add_1_r, knot_succ by auto.
      assert (P := INR_pos S HS). field. lra.
Qed.
Print Assumptions C80_sampling_layers_exist.

Example C80_case : exists S0 l, (S0 <= pw_segments l)%nat /\ held l /\ pw_cls l = PiecewisePolynomial /\ pw_n l = 4%nat /\
  forall x, -1 <= x <= 1 -> Rabs (layer_out l (fun _ => x) 0 - exp x) <= 1 / 1000.
Proof.
  destruct (C80_converges 4 1 (fun _ => exp) (1/1000)) as (S0 & P); [|lra|].
  { intros i x _ _. apply derivable_continuous_pt, derivable_pt_exp. }
  exists S0.
  destruct (C80_sampling_layers_exist PiecewisePolynomial 4 1 1 (S0 + 1) (fun _ _ => exp)) as (l & H1 & H2 & H3 & H4 & H5 & H6 & H7 & H8 & H9);
    [now left|lia|lia|lia|lia|lia|].
  exists l. repeat split; auto; [lia|]. intros x Hx.
  specialize (P l 0%nat (fun _ => x) H1 H2 H3). cbn [rsum] in P. rewrite Rplus_0_l in P. apply P; auto; try lia. rewrite H4. now left.
Qed.

(** ** C81: special cases that are ordinary layers *)
(** A polynomial layer with two nodes is a linear layer with bias. *)
Theorem C81_two_nodes_linear : forall I O mag draw w x B,
  shape w = [O; I; 2%nat] -> shape x = [B; I] ->
  exists y, Function_forward (with_fw (Polynomial 2 I O 2 mag None draw) w) x = Ok y /\ shape y = [B; O] /\
    forall b o, (b < B)%nat -> (o < O)%nat ->
      at_ y [b; o] = rsum I (fun i => (at_ w [o; i; 1%nat] - at_ w [o; i; 0%nat]) / 2 * at_ x [b; i])
                   + rsum I (fun i => (at_ w [o; i; 1%nat] + at_ w [o; i; 0%nat]) / 2).
Proof.
  intros I O mag draw w x B Hw Hx.
  destruct (function_spec 2 (lb_basis (get_lagrange_basis 2 2)) None w x B I O ltac:(lia) Hw Hx) as (y & E & Hs & Hy).
  exists y. split; [exact E|]. split; [exact Hs|]. intros b o Hb Ho. rewrite Hy by auto.
  rewrite <- rsum_plus. apply rsum_ext. intros i Hi.
  change (interp 2 2 (fun k => at_ w [o; i; k]) (at_ x [b; i])
    = (at_ w [o; i; 1%nat] - at_ w [o; i; 0%nat]) / 2 * at_ x [b; i] + (at_ w [o; i; 1%nat] + at_ w [o; i; 0%nat]) / 2).
  rewrite interp_two. field.
Qed.
Print Assumptions C81_two_nodes_linear.

(** Every affine map of [[I]] inputs is such a layer. *)
Theorem C81_every_linear_layer : forall I O mag draw (A : nat -> nat -> R) (c : nat -> R), (1 <= I)%nat ->
  exists w, shape w = [O; I; 2%nat] /\ forall x B, shape x = [B; I] ->
  exists y, Function_forward (with_fw (Polynomial 2 I O 2 mag None draw) w) x = Ok y /\ shape y = [B; O] /\
    forall b o, (b < B)%nat -> (o < O)%nat -> at_ y [b; o] = rsum I (fun i => A o i * at_ x [b; i]) + c o.
Proof.
  intros I O mag draw A c HI.
  exists (mkT [O; I; 2%nat] (fun ix => let o := nth 0 ix 0%nat in let i := nth 1 ix 0%nat in
    c o / INR I + (if Nat.eqb (nth 2 ix 0%nat) 0 then - A o i else A o i))).
  split; [reflexivity|]. intros x B Hx.
  match goal with |- context [with_fw _ ?w] => destruct (C81_two_nodes_linear I O mag draw w x B eq_refl Hx) as (y & E & Hs & Hy) end.
  exists y. split; [exact E|]. split; [exact Hs|]. intros b o Hb Ho. rewrite Hy by auto. cbn.
  f_equal.
  - apply rsum_ext. intros. field. apply not_0_INR. lia.
  - rewrite (rsum_ext I _ (fun _ => c o / INR I)) by (intros; field; apply not_0_INR; lia).
    rewrite rsum_const. field. apply not_0_INR. lia.
Qed.
Print Assumptions C81_every_linear_layer.

(** A piecewise layer with one segment is the single polynomial layer with the same weights. *)
Theorem C81_one_segment_is_polynomial : forall l mag draw x B,
  held l -> pw_length l = 2 -> sum_class (pw_cls l) -> pw_segments l = 1%nat -> shape x = [B; pw_in l] ->
  exists y y', Piecewise_forward l x = Ok y /\
    Function_forward (with_fw (Polynomial (pw_n l) (pw_in l) (pw_out l) 2 mag (pw_periodicity l) draw) (pw_w l)) x = Ok y' /\ teq y y'.
Proof.
  intros l mag draw x B H HL Hc H1 Hx. pose proof (held_wf l H) as (Hn & HS & _ & _ & _ & Hw).
  destruct (forward_rows l x B H Hx) as (y & E & Hs & Hy).
  assert (Hw' : shape (pw_w l) = [pw_out l; pw_in l; pw_n l]).
  { rewrite Hw. unfold pw_num_weights. rewrite H1. destruct (is_continuous_class (pw_cls l)); repeat f_equal; lia. }
  destruct (function_spec (pw_n l) (lb_basis (get_lagrange_basis (pw_n l) 2)) (pw_periodicity l) (pw_w l) x B (pw_in l) (pw_out l) Hn Hw' Hx) as (y' & E' & Hs' & Hy').
  exists y, y'. split; [exact E|]. split; [exact E'|]. split; [congruence|].
  intros ix V. rewrite Hs in V. apply valid2 in V. destruct V as (b & o & -> & Hb & Ho).
  rewrite Hy, Hy', layer_out_sum by auto. apply rsum_ext. intros i Hi.
  change (link l o i (row x b i) = interp (pw_n l) 2 (fun k => at_ (pw_w l) [o; i; k]) (apply_periodicity (pw_periodicity l) (at_ x [b; i]))).
  unfold link. destruct (link_interp l o i (apply_periodicity (pw_periodicity l) (row x b i)) H HL) as (s & Hin & ->).
  assert (s = 0%nat) by (destruct Hin; lia). subst s. unfold row. rewrite H1.
  replace (seg_local 1 0 (apply_periodicity (pw_periodicity l) (at_ x [b; i]))) with (apply_periodicity (pw_periodicity l) (at_ x [b; i]))
    by (unfold seg_local, knot; simpl; field).
  apply interp_ext. intros k Hk. rewrite weight_pos_eq. reflexivity.
Qed.
Print Assumptions C81_one_segment_is_polynomial.

(** Adding a number to all weights of a link adds it to the output: only the sum over the links of an output counts. *)
Theorem C81_shifting_links : forall l o d v,
  held l -> sum_class (pw_cls l) -> (o < pw_out l)%nat ->
  layer_out (with_w l (mkT (shape (pw_w l)) (fun ix => at_ (pw_w l) ix + d (nth 0 ix 0%nat) (nth 1 ix 0%nat)))) v o
  = layer_out l v o + rsum (pw_in l) (d o).
Proof.
  intros l o d v H Hc Ho. pose proof (held_wf l H) as (Hn & _).
  set (w := mkT _ _). assert (H' : held (with_w l w)) by (apply with_w_held; auto).
  rewrite !layer_out_sum by auto. change (pw_in (with_w l w)) with (pw_in l). rewrite <- rsum_plus. apply rsum_ext. intros i Hi.
  rewrite link_with_w. unfold link, link0, piece. cbv zeta.
  set (x := apply_periodicity (pw_periodicity l) (v i)). set (t := x_local l x (Z.of_nat (seg l x))).
  rewrite <- (interp_const (pw_n l) 2 (d o i) t) at 1 by (lra || auto).
  unfold interp. rewrite <- rsum_plus. apply rsum_ext. intros k Hk. rewrite seg_weight_eq. cbn. ring.
Qed.
Print Assumptions C81_shifting_links.

Example C81_case : exists w, shape w = [1; 2; 2]%nat /\ forall x, shape x = [1; 2]%nat ->
  exists y, Function_forward (with_fw (Polynomial 2 2 1 2 1 None (fun _ _ => 0)) w) x = Ok y /\
    at_ y [0; 0]%nat = 3 * at_ x [0; 0]%nat - 5 * at_ x [0; 1]%nat + 7.
Proof.
  destruct (C81_every_linear_layer 2 1 1 (fun _ _ => 0) (fun _ i => if Nat.eqb i 0 then 3 else -5) (fun _ => 7) ltac:(lia)) as (w & Hw & P).
  exists w. split; auto. intros x Hx. destruct (P x 1%nat Hx) as (y & E & Hs & Hy). exists y. split; auto.
  rewrite Hy by lia. cbn. ring.
Qed.
Example C81_piecewise_case : held overshoot /\ sum_class (pw_cls overshoot) /\ pw_segments overshoot = 1%nat /\ pw_length overshoot = 2.
Proof. repeat split; [apply overshoot_held|now left]. Qed.
