(** * The network of examples/xor.py (C93). *)
From Coq Require Import String Reals Lra ZArith List Lia Bool Arith.
From Verif Require Import Spec Tensor Utils LagrangePolynomial Basis PolynomialLayers Refine ProductLayer LagrangeND
  Layers Networks Examples Observe ObserveNet SumFacts TensorFacts LagrangeFacts LayerFacts LayerProofs NDFacts HeapFacts NetFacts
  SegmentFacts Prop_Layers Prop_ND Prop_Init Prop_Represent NetTypes Prop_Rows.
Import ListNotations.
Local Open Scope R_scope.

(** The points the example is trained on: x and y in [[-1, 1]], here off the axes. *)
Definition xor_point (x y : R) : Prop := -1 <= x <= 1 /\ -1 <= y <= 1 /\ x <> 0 /\ y <> 0.
(** [f] returns the target for every row of every batch whose entries are not 0. *)
Definition solves_xor (f : tensor R -> res (tensor R)) : Prop := forall x B, shape x = [B; 2%nat] -> (1 <= B)%nat ->
  exists y, f x = Ok y /\ shape y = [B; 1%nat] /\
    forall b, (b < B)%nat -> at_ x [b; 0%nat] <> 0 -> at_ x [b; 1%nat] <> 0 ->
      at_ y [b; 0%nat] = if Rlt_dec 0 (at_ x [b; 0%nat] * at_ x [b; 1%nat]) then - (1/2) else 1/2.
(** A PiecewiseND layer with other weights. *)
Definition nd_with (l : piecewise_nd) (w : tensor R) : piecewise_nd :=
  mkPwND (pd_dimensions l) (pd_n l) (pd_segments l) (pd_in l) (pd_out l) (pd_length l) (pd_basis l) w.

(** ** Construction *)
(** The layer type polynomial_2d of the configuration cannot be built. *)
Theorem C93_polynomial_2d_fails : forall g n segments h, new_xor g n segments "polynomial_2d" h = Err TypeError.
Proof. reflexivity. Qed.
Print Assumptions C93_polynomial_2d_fails.

(** Every other fully connected layer type gives a network from [B, 2] to [B, 1] that treats the rows of a batch separately,
    when built and after any training. *)
Theorem C93_network : forall g n segments t h0, wf_heap h0 -> flat_layer t (Int n) (Some (Int segments)) ->
  exists m h1, new_xor g n segments t h0 = Ok (m, h1) /\
    forall h, retrained h1 h -> rowwise 2 1 (xor_forward h m).
Proof.
  intros g n s t h0 W0 F. unfold new_xor.
  assert (T : String.eqb t "polynomial_2d" = false /\ String.eqb t "continuous_nd" = false).
  { destruct F as [F|[(F & _)|(F & _)]]; cbn in F; intuition (subst; reflexivity). }
  destruct T as (-> & ->).
  destruct (makes_flatq true g h0 t (Int n) 2 2 (Some (Int s)) None 2 false "constant_random" W0 F ltac:(lia) ltac:(lia)) as (k1 & e1 & E1 & W1 & T1 & _).
  unfold mthen, mret. rewrite E1.
  destruct (makes_flatq true g (h0 ++ e1) t (Int n) 2 1 (Some (Int s)) None 2 false "constant_random" W1 F ltac:(lia) ltac:(lia)) as (k2 & e2 & E2 & W2 & T2 & _).
  rewrite E2. eexists _, _. split; [reflexivity|]. intros h Rt. cbn [xor_forward].
  apply (run_good true ((h0 ++ e1) ++ e2) h 2 [k1; k2] 1).
  - econstructor; [|econstructor; [exact T2|constructor]]. eapply typed_later; [|exact T1].
    apply later_app; auto.
  - now apply later_retrained.
Qed.
Print Assumptions C93_network.

Definition xor_class (t : string) (c : pw_class) : Prop :=
  t = "continuous"%string /\ c = PiecewisePolynomial \/ t = "continuous_prod"%string /\ c = PiecewisePolynomialProd \/
  t = "discontinuous"%string /\ c = PiecewiseDiscontinuousPolynomial \/ t = "discontinuous_prod"%string /\ c = PiecewiseDiscontinuousPolynomialProd.
Lemma xor_built g n s t c h : xor_class t c -> exists d1 d2,
  new_xor g n s t h = Ok (XorStandard (length h) (S (length h)),
    h ++ [OPiecewise (new_piecewise c n 2 2 s 2 1 None d1); OPiecewise (new_piecewise c n 2 1 s 2 1 None d2)]).
Proof.
  intros [(-> & ->)|[(-> & ->)|[(-> & ->)|(-> & ->)]]]; unfold new_xor; cbn -[new_piecewise length app];
    (do 2 eexists); rewrite <- app_assoc, app_length, Nat.add_1_r; reflexivity.
Qed.

Lemma get_pair h a b : get (h ++ [a; b]) (length h) = a /\ get (h ++ [a; b]) (S (length h)) = b.
Proof.
  split; [pose proof (get_app_r h [a; b] 0) as E; now rewrite Nat.add_0_r in E|pose proof (get_app_r h [a; b] 1) as E; now rewrite Nat.add_1_r in E].
Qed.
Lemma reweighted_pw l o : reweighted (OPiecewise l) o -> exists w, o = OPiecewise (with_w l w) /\ shape w = shape (pw_w l).
Proof. intros R. inversion R; subst; [eauto|]. exists (pw_w l). destruct l; auto. Qed.
Lemma reweighted_func l o : reweighted (OFunc l) o -> exists w, o = OFunc (with_fw l w) /\ shape w = shape (f_w l).
Proof. intros R. inversion R; subst; [eauto|]. exists (f_w l). destruct l; auto. Qed.
Lemma trained_pair h0 a b h : wf_heap h0 -> refs a = [] -> refs b = [] -> retrained (h0 ++ [a; b]) h ->
  wf_heap h /\ (S (length h0) < length h)%nat /\ reweighted a (get h (length h0)) /\ reweighted b (get h (S (length h0))).
Proof.
  intros W0 Ca Cb Rt.
  assert (W1 : wf_heap (h0 ++ [a; b])).
  { change [a; b] with ([a] ++ [b]). rewrite app_assoc. apply wf_snoc; [apply wf_snoc; auto|]; [rewrite Ca|rewrite Cb]; now cbn. }
  split; [apply (retrained_wf _ _ Rt W1)|]. destruct Rt as (L & Rt). rewrite app_length in *. cbn [length] in *. split; [lia|].
  pose proof (Rt (length h0) ltac:(lia)) as R1. pose proof (Rt (S (length h0)) ltac:(lia)) as R2.
  destruct (get_pair h0 a b) as (G1 & G2). rewrite G1 in R1. rewrite G2 in R2. auto.
Qed.

(** ** What the network can and cannot represent *)
Lemma sign_segment m x : (1 <= m)%nat -> exists s, in_segment (2 * m) s x /\ ((m <= s)%nat <-> 0 <= x).
Proof.
  intros Hm. destruct (C06_segment_exists (2 * m) x ltac:(lia)) as (s & Hs). exists s. split; [exact Hs|]. destruct Hs as (H1 & H2 & H3).
  assert (K : knot (2 * m) m = 0).
  { unfold knot. rewrite mult_INR. simpl (INR 2). assert (0 < INR m) by (apply lt_0_INR; lia). field. lra. }
  split; intros H.
  - destruct H2 as [H2|H2]; [lia|]. pose proof (knot_le (2 * m) m s ltac:(lia) H). lra.
  - destruct (Nat.le_gt_cases m s) as [|C]; auto. exfalso. destruct H3 as [H3|H3]; [lia|].
    pose proof (knot_le (2 * m) (S s) m ltac:(lia) ltac:(lia)). lra.
Qed.
Lemma xor_cases x y : x <> 0 -> y <> 0 -> (if Rlt_dec 0 (x * y) then - (1/2) else 1/2) =
  if Rle_dec 0 x then (if Rle_dec 0 y then - (1/2) else 1/2) else (if Rle_dec 0 y then 1/2 else - (1/2)).
Proof.
  intros Hx Hy. destruct (Rlt_dec 0 (x * y)) as [C|C]; destruct (Rle_dec 0 x); destruct (Rle_dec 0 y); auto; exfalso; nra.
Qed.

(** Discontinuous layers with an even number of segments, of any order: some weights give the target exactly off the axes. *)
Theorem C93_discontinuous_exact : forall g n m h0, (1 <= n)%nat -> (1 <= m)%nat -> wf_heap h0 ->
  exists net h1 h, new_xor g n (2 * m) "discontinuous" h0 = Ok (net, h1) /\ retrained h1 h /\ solves_xor (xor_forward h net).
Proof.
  intros g n m h0 Hn Hm W0.
  destruct (xor_built g n (2 * m) "discontinuous" PiecewiseDiscontinuousPolynomial h0) as (d1 & d2 & E); [unfold xor_class; tauto|].
  destruct (step_layer n 2 2 (2 * m) (fun o i s => (if Nat.leb m s then 1 else -1) / 4 + (if Nat.eqb o 0 then -1 else 1) / 8) Hn) as (w1 & W1 & L1); try lia.
  destruct (step_layer n 2 1 (2 * m) (fun o i s => if Nat.eqb i 0 then (if Nat.leb m s then -1 else 0) else (if Nat.leb m s then 1/2 else -(1/2))) Hn) as (w2 & W2 & L2); try lia.
  cbv zeta in L1, L2. set (l1 := with_w _ w1) in *. set (l2 := with_w _ w2) in *.
  assert (H1 : held l1) by (apply with_w_held; [apply new_held; lia|exact W1]).
  assert (H2 : held l2) by (apply with_w_held; [apply new_held; lia|exact W2]).
  eexists _, _, (h0 ++ [OPiecewise l1; OPiecewise l2]). split; [exact E|]. split.
  { split; [now rewrite !app_length|]. intros i Hi. destruct (Nat.lt_ge_cases i (length h0)) as [Li|Li]; [rewrite !get_app_l by auto; constructor|].
    replace i with (length h0 + (i - length h0))%nat by lia. rewrite !get_app_r. destruct (i - length h0)%nat as [|[|j]]; cbn [get nth].
    - apply (RwPiecewise (new_piecewise PiecewiseDiscontinuousPolynomial n 2 2 (2 * m) 2 1 None d1) w1 W1).
    - apply (RwPiecewise (new_piecewise PiecewiseDiscontinuousPolynomial n 2 1 (2 * m) 2 1 None d2) w2 W2).
    - constructor. }
  assert (W : wf_heap (h0 ++ [OPiecewise l1; OPiecewise l2])).
  { change [?a; ?b] with ([a] ++ [b]). rewrite app_assoc. apply wf_snoc; [apply wf_snoc; auto|]; now cbn. }
  intros x B Hx HB. cbn [xor_forward run].
  assert (C1 : forall x, call (h0 ++ [OPiecewise l1; OPiecewise l2]) (length h0) x = Piecewise_forward l1 x).
  { intros x'. rewrite call_unfold by (auto; rewrite app_length; cbn; lia). now rewrite (proj1 (get_pair h0 _ _)). }
  assert (C2 : forall x, call (h0 ++ [OPiecewise l1; OPiecewise l2]) (S (length h0)) x = Piecewise_forward l2 x).
  { intros x'. rewrite call_unfold by (auto; rewrite app_length; cbn; lia). now rewrite (proj2 (get_pair h0 _ _)). }
  rewrite C1. destruct (forward_rows l1 x B H1 Hx) as (z & Ez & Sz & Vz). rewrite Ez. cbn [rbind].
  rewrite C2. destruct (forward_rows l2 z B H2 Sz) as (y & Ey & Sy & Vy). rewrite Ey. cbn [rbind].
  exists y. split; [reflexivity|]. split; [exact Sy|]. intros b Hb N0 N1. rewrite Vy by (auto; cbn; lia). rewrite xor_cases by auto.
  destruct (sign_segment m (at_ x [b; 0%nat]) Hm) as (s0 & I0 & Q0). destruct (sign_segment m (at_ x [b; 1%nat]) Hm) as (s1 & I1 & Q1).
  assert (Hz : forall o, (o < 2)%nat -> at_ z [b; o] = (if Nat.leb m s0 then 1 else -1) / 4 + (if Nat.leb m s1 then 1 else -1) / 4 + (if Nat.eqb o 0 then -1 else 1) / 4).
  { intros o Ho. rewrite Vz by auto. rewrite (L1 (row x b) o (fun i => if Nat.eqb i 0 then s0 else s1) Ho).
    - cbn. field.
    - intros i Hi. unfold row. destruct i as [|[|i]]; [exact I0|exact I1|lia]. }
  destruct (sign_segment m (at_ z [b; 0%nat]) Hm) as (u0 & J0 & P0). destruct (sign_segment m (at_ z [b; 1%nat]) Hm) as (u1 & J1 & P1).
  rewrite (L2 (row z b) 0%nat (fun i => if Nat.eqb i 0 then u0 else u1)).
  2: lia. 2: { intros i Hi. unfold row. destruct i as [|[|i]]; [exact J0|exact J1|lia]. }
  rewrite (Hz 0%nat) in P0 by lia. rewrite (Hz 1%nat) in P1 by lia. cbn [rsum Nat.eqb] in *.
  destruct (Nat.leb_spec m s0) as [A0|A0]; destruct (Nat.leb_spec m s1) as [A1|A1];
  destruct (Nat.leb_spec m u0) as [B0|B0]; destruct (Nat.leb_spec m u1) as [B1|B1];
  destruct (Rle_dec 0 (at_ x [b; 0%nat])) as [X0|X0]; destruct (Rle_dec 0 (at_ x [b; 1%nat])) as [X1|X1];
  try lra; exfalso; try (apply Q0 in A0; lra); try (apply Q1 in A1; lra);
  try (apply Q0 in X0; lia); try (apply Q1 in X1; lia);
  try (apply P0 in B0; lra); try (apply P1 in B1; lra);
  (assert (m <= u0)%nat by (apply P0; lra); lia) || (assert (m <= u1)%nat by (apply P1; lra); lia).
Qed.
Print Assumptions C93_discontinuous_exact.

(** The PiecewiseND layer, called continuous_nd, is not continuous: with two segments it represents the target exactly. *)
Theorem C93_continuous_nd_exact : forall g n h, (1 <= n)%nat -> exists l w,
  new_xor g n 2 "continuous_nd" h = Ok (XorND l, h) /\ shape w = shape (pd_w l) /\ solves_xor (xor_forward h (XorND (nd_with l w))).
Proof.
  intros g n h Hn.
  destruct (new_nd_spec [n; n] [2; 2]%nat 1 1 2 (Some 2%nat) 1 (fun i o => g (length h) [i; o]) (g (length h)) ltac:(cbn; lia) eq_refl ltac:(now right)) as (p & Ep & El).
  set (l := mkPwND _ _ _ _ _ _ _ _) in El.
  set (w := mkT (shape (pd_w l)) (fun ix : index => (-1) ^ total_degree [n; n] *
     (if orb (Nat.eqb (hd 0%nat ix / prodn [n; n]) 0) (Nat.eqb (hd 0%nat ix / prodn [n; n]) 3) then - (1/2) else 1/2))).
  exists l, w. split; [|split; [reflexivity|]].
  { unfold new_xor. cbn -[new_PiecewiseND].
    change (new_PiecewiseND (Ints [n; n]) 1 1 (Int 2) (Some 2%nat) 2 1 true (fun i o => g (length h) [i; o]) (g (length h))) with
      (new_PiecewiseND (Ints [n; n]) 1 1 (Ints [2; 2]%nat) (Some 2%nat) 2 1 true (fun i o => g (length h) [i; o]) (g (length h))).
    rewrite El. reflexivity. }
  assert (Hl : held_nd [n; n] [2; 2]%nat 1 1 2 (nd_with l w)).
  { split; [cbn; lia|]. split; [reflexivity|]. split; [cbn; intuition lia|]. split; [cbn; intuition lia|]. split; [lia|]. split; [lia|].
    eexists (Some 2%nat), 1, _, _, l, w. split; [now right|]. split; [exact El|]. split; reflexivity. }
  intros x B Hx HB. cbn [xor_forward].
  assert (Sx : shape (unsqueeze1 x) = [B; 1; 2]%nat) by (unfold unsqueeze1; cbn; now rewrite Hx).
  destruct (C41_outputs_identical _ _ _ _ _ _ (unsqueeze1 x) B 1 Hl ltac:(lra) HB ltac:(lia) Sx) as (y & Ey & Sy & _).
  exists y. split; [exact Ey|]. split; [exact Sy|]. intros b Hb N0 N1.
  set (s := fun t : R => if Rle_dec 0 t then 1%nat else 0%nat).
  set (c := [s (at_ x [b; 0%nat]); s (at_ x [b; 1%nat])]).
  set (v := (-1) ^ total_degree [n; n] * (if Rlt_dec 0 (at_ x [b; 0%nat] * at_ x [b; 1%nat]) then - (1/2) else 1/2)).
  destruct (C41_piecewise_function [n; n] [2; 2]%nat 1 1 (nd_with l w) (unsqueeze1 x) B 1 b 0 (fun _ => c) (fun _ _ => v) Hl) as (y' & Ey' & Vy'); auto; try lia.
  - intros i Hi. split; [reflexivity|]. intros d Hd. cbn [length] in Hd. replace i with 0%nat by lia.
    destruct d as [|[|d]]; [| |lia]; cbn [nth c unsqueeze1 at_ hd tl]; apply segment_of_sign.
  - intros i Hi. split.
    + exists (fun a => if index_eqb a [0; 0]%nat then v else 0). intros u. rewrite (nsum_single [n; n] [0; 0]%nat); [cbn; ring|cbn; lia|].
      intros ix _ Ne. destruct (index_eqb ix [0; 0]%nat) eqn:Q; [|ring]. now apply index_eqb_eq in Q.
    + intros j Hj. cbn [nd_with pd_w w at_ hd]. rewrite <- (Nat.div_unique _ (prodn [n; n]) (ravel [2; 2]%nat c) (ravel [n; n] j)).
      2: now apply ravel_lt. 2: ring.
      unfold v, c, s. rewrite xor_cases by auto. f_equal. destruct Rle_dec; destruct Rle_dec; reflexivity.
  - rewrite Ey in Ey'. injection Ey' as <-. rewrite Vy'. cbn [rsum]. unfold v. rewrite Rplus_0_l, <- Rmult_assoc, <- Rpow_mult_distr.
    replace (-1 * -1) with 1 by ring. rewrite pow1. ring.
Qed.
Print Assumptions C93_continuous_nd_exact.

(** Networks of continuous layers are continuous, and so are off by nearly 1/2 somewhere, whatever their weights. *)
Lemma func_continuous n b p w I O : (1 <= n)%nat -> shape w = [O; I; n] -> p = None ->
  (forall k, (k < n)%nat -> continuity (fun t => LagrangePolynomial.call b t k)) -> rowwise_continuous I O (Function_forward (mkFunc n b p w)).
Proof.
  intros Hn Hw -> Hb. exists (fun v o => rsum I (fun i => rsum n (fun k => LagrangePolynomial.call b (v i) k * at_ w [o; i; k]))). split.
  - intros o Ho. apply continuous_vec_rsum. intros i Hi. apply continuous_vec_rsum. intros k Hk.
    apply continuous_vec_mult; [|apply continuous_vec_const]. now apply (continuous_vec_coord I i (fun t => LagrangePolynomial.call b t k)), Hb.
  - intros x B Hx. now apply function_spec.
Qed.
Lemma lagrange_continuous n len k : (k < n)%nat -> continuity (fun t => LagrangePolynomial.call (lb_basis (get_lagrange_basis n len)) t k).
Proof. intros Hk. apply (poly_lt_continuous n). apply (lag_poly n len k Hk). Qed.
Lemma fourier_continuous len k : continuity (fun t => LagrangePolynomial.call (FourierBasis len) t k).
Proof.
  cbn. unfold fourier_call. destruct (Nat.eqb k 0); [|destruct (Nat.eqb (k mod 2) 0)]; apply derivable_continuous; reg.
Qed.
Lemma xor_continuous g n s t h0 m h1 h : wf_heap h0 -> (1 <= n)%nat -> (1 <= s)%nat ->
  In t ["continuous"; "continuous_prod"; "polynomial"; "fourier"]%string -> new_xor g n s t h0 = Ok (m, h1) -> retrained h1 h ->
  rowwise_continuous 2 1 (xor_forward h m).
Proof.
  intros W0 Hn Hs Ht E Rt.
  assert (Two : forall k1 k2, wf_heap h -> rowwise_continuous 2 2 (call h k1) -> rowwise_continuous 2 1 (call h k2) -> rowwise_continuous 2 1 (xor_forward h (XorStandard k1 k2))).
  { intros k1 k2 W R1 R2. apply (rowwise_continuous_comp 2 2 1 (call h k1) (fun y => z <- call h k2 y ;; Ok z)); auto.
    apply (rowwise_continuous_comp 2 1 1 (call h k2) (fun z => Ok z)); auto. apply rowwise_continuous_id. }
  assert (Pw : forall c, xor_class t c -> continuous_class c -> rowwise_continuous 2 1 (xor_forward h m)).
  { intros c Hc Cc. destruct (xor_built g n s t c h0 Hc) as (d1 & d2 & E'). rewrite E' in E. injection E as <- <-.
    destruct (trained_pair h0 (OPiecewise (new_piecewise c n 2 2 s 2 1 None d1)) (OPiecewise (new_piecewise c n 2 1 s 2 1 None d2)) h W0 eq_refl eq_refl Rt) as (W & L & R1 & R2).
    assert (One : forall k O d, (1 <= O)%nat -> reweighted (OPiecewise (new_piecewise c n 2 O s 2 1 None d)) (get h k) -> rowwise_continuous 2 O (call h k)).
    { intros k O d HO R. assert (exists w, get h k = OPiecewise (with_w (new_piecewise c n 2 O s 2 1 None d) w) /\ shape w = shape (pw_w (new_piecewise c n 2 O s 2 1 None d))) as (w & G & Sw).
      { now apply reweighted_pw. }
      assert (H : held (with_w (new_piecewise c n 2 O s 2 1 None d) w)) by (apply with_w_held; [apply new_held; lia|exact Sw]).
      apply (continuous_call h k _ W G H). intros o Ho. apply layer_continuous_all; auto. discriminate. }
    apply Two; auto; [apply (One _ 2%nat d1)|apply (One _ 1%nat d2)]; auto. }
  assert (Fn : forall l1 l2, new_xor g n s t h0 = Ok (XorStandard (length h0) (S (length h0)), h0 ++ [OFunc l1; OFunc l2]) ->
    f_n l1 = n -> f_n l2 = n -> f_periodicity l1 = None -> f_periodicity l2 = None -> shape (f_w l1) = [2; 2; n]%nat -> shape (f_w l2) = [1; 2; n]%nat ->
    (forall k, (k < n)%nat -> continuity (fun t => LagrangePolynomial.call (f_basis l1) t k)) -> (forall k, (k < n)%nat -> continuity (fun t => LagrangePolynomial.call (f_basis l2) t k)) ->
    rowwise_continuous 2 1 (xor_forward h m)).
  { intros l1 l2 E' N1 N2 P1 P2 S1 S2 C1 C2. rewrite E' in E. injection E as <- <-.
    destruct (trained_pair h0 (OFunc l1) (OFunc l2) h W0 eq_refl eq_refl Rt) as (W & L & R1 & R2).
    assert (One : forall k O l, reweighted (OFunc l) (get h k) -> (k < length h)%nat -> f_n l = n -> f_periodicity l = None -> shape (f_w l) = [O; 2%nat; n] ->
       (forall k, (k < n)%nat -> continuity (fun t => LagrangePolynomial.call (f_basis l) t k)) -> rowwise_continuous 2 O (call h k)).
    { intros k O l R Lk N P S C. assert (exists w, get h k = OFunc (with_fw l w) /\ shape w = shape (f_w l)) as (w & G & Sw).
      { now apply reweighted_func. }
      eapply rowwise_continuous_ext; [intros x; symmetry; rewrite call_unfold, G by auto; reflexivity|]. cbn [obj_forward]. unfold with_fw. rewrite N.
      apply func_continuous; auto. congruence. }
    apply Two; auto; [apply (One _ 2%nat l1)|apply (One _ 1%nat l2)]; auto; lia. }
  cbn in Ht. destruct Ht as [<-|[<-|[<-|[<-|[]]]]].
  - apply (Pw PiecewisePolynomial); [unfold xor_class; tauto|now left].
  - apply (Pw PiecewisePolynomialProd); [unfold xor_class; tauto|now right].
  - eapply Fn; [unfold new_xor; cbn -[Polynomial length app]; rewrite <- app_assoc, app_length, Nat.add_1_r; reflexivity|..]; try reflexivity; try (intros k Hk; now apply lagrange_continuous); destruct n as [|[|n]]; lia || reflexivity.
  - eapply Fn; [unfold new_xor; cbn -[FourierSeries length app]; rewrite <- app_assoc, app_length, Nat.add_1_r; reflexivity|..]; try reflexivity; try (intros k Hk; apply fourier_continuous).
Qed.
Theorem C93_continuous_error : forall g n s t h0 m h1 h eps, wf_heap h0 -> (1 <= n)%nat -> (1 <= s)%nat ->
  In t ["continuous"; "continuous_prod"; "polynomial"; "fourier"]%string -> new_xor g n s t h0 = Ok (m, h1) -> retrained h1 h ->
  0 < eps -> exists a b y, xor_point a b /\ xor_forward h m (one_sample 2 (fun i => if Nat.eqb i 0 then a else b)) = Ok y /\
    1/2 - eps < Rabs (at_ y [0%nat; 0%nat] - if Rlt_dec 0 (a * b) then - (1/2) else 1/2).
Proof.
  intros g n s t h0 m h1 h eps W0 Hn Hs Ht E Rt He. destruct (xor_continuous g n s t h0 m h1 h W0 Hn Hs Ht E Rt) as (F & CF & VF).
  destruct (CF 0%nat ltac:(lia) (pair_ 0 1) eps He) as (d & Hd & P).
  set (a := Rmin (d / 2) 1). assert (Ha : 0 < a) by (apply Rmin_glb_lt; lra). assert (Ha1 : a <= 1) by apply Rmin_r. assert (Ha2 : a <= d / 2) by apply Rmin_l.
  assert (N : forall t, t = a \/ t = - a -> Rabs (F (pair_ t 1) 0%nat - F (pair_ 0 1) 0%nat) < eps).
  { intros t' Ht'. apply P. intros i Hi. unfold pair_. destruct (Nat.eqb i 0).
    - destruct Ht' as [-> | ->]; unfold Rabs; destruct Rcase_abs; lra.
    - replace (1 - 1) with 0 by ring. rewrite Rabs_R0. auto. }
  assert (V : forall t, exists y, xor_forward h m (one_sample 2 (pair_ t 1)) = Ok y /\ at_ y [0%nat; 0%nat] = F (pair_ t 1) 0%nat).
  { intros t'. destruct (VF (one_sample 2 (pair_ t' 1)) 1%nat eq_refl) as (y & Ey & _ & Vy). exists y. split; auto. apply (Vy 0%nat 0%nat); lia. }
  pose proof (N a (or_introl eq_refl)) as N1. pose proof (N (- a) (or_intror eq_refl)) as N2. apply Rabs_def2 in N1, N2.
  destruct (Rle_dec 0 (F (pair_ 0 1) 0%nat)).
  - destruct (V a) as (y & Ey & Vy). exists a, 1, y. split; [unfold xor_point; lra|]. split; [exact Ey|]. rewrite Vy.
    destruct Rlt_dec; [|lra]. eapply Rlt_le_trans; [|apply Rle_abs]. lra.
  - destruct (V (- a)) as (y & Ey & Vy). exists (- a), 1, y. split; [unfold xor_point; lra|]. split; [exact Ey|]. rewrite Vy.
    destruct Rlt_dec; [lra|]. rewrite <- Rabs_Ropp. eapply Rlt_le_trans; [|apply Rle_abs]. lra.
Qed.
Print Assumptions C93_continuous_error.

(** The default model sets: a discontinuous network of order 3 with two segments can be trained to the exact target, a continuous
    one of order 5 cannot get within 0.4 of it on the whole square. *)
Example C93_case : forall g, exists net h1 h, new_xor g 3 2 "discontinuous" [] = Ok (net, h1) /\ retrained h1 h /\ solves_xor (xor_forward h net).
Proof. intros g. apply (C93_discontinuous_exact g 3 1 []); auto. intros i Hi. cbn in Hi. lia. Qed.
Example C93_continuous_case : forall g, exists net h1, new_xor g 5 2 "continuous" [] = Ok (net, h1) /\
  exists a b y, xor_point a b /\ xor_forward h1 net (one_sample 2 (fun i => if Nat.eqb i 0 then a else b)) = Ok y /\
    4/10 < Rabs (at_ y [0%nat; 0%nat] - if Rlt_dec 0 (a * b) then - (1/2) else 1/2).
Proof.
  intros g. assert (W : wf_heap []) by (intros i Hi; cbn in Hi; lia).
  destruct (C93_network g 5 2 "continuous" [] W) as (net & h1 & E & _).
  { right. right. split; [cbn; tauto|]. exists 5%nat, 2%nat. repeat split; lia. }
  exists net, h1. split; [exact E|].
  destruct (C93_continuous_error g 5 2 "continuous" [] net h1 h1 (1/10) W ltac:(lia) ltac:(lia) ltac:(cbn; tauto) E (conj eq_refl (fun i _ => RwSame (get h1 i))) ltac:(lra)) as (a & b & y & P & Ey & V).
  exists a, b, y. split; auto. split; auto. lra.
Qed.
