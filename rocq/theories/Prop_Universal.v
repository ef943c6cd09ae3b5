(** * Networks as universal approximators: C82 and C83 for HighOrderMLP. *)
From Coq Require Import String Reals ZArith List Lia Lra Psatz Bool Arith.
From Verif Require Import Spec Tensor Utils LagrangePolynomial Basis PolynomialLayers ProductLayer LagrangeND Layers Networks Observe ObserveNet
  SumFacts TensorFacts LagrangeFacts LayerFacts SegmentFacts LayerProofs HeapFacts NetFacts Prop_Init CompactFacts Prop_Bounds Prop_Approx Prop_Represent.
Import ListNotations.
Local Open Scope R_scope.

(** ** Loading weights into a network *)
(** What layers in sequence compute on one sample. *)
Fixpoint through (ls : list piecewise) (v : nat -> R) : nat -> R :=
  match ls with [] => v | l :: ls => through ls (layer_out l v) end.
(** Layers in sequence whose widths fit. *)
Inductive chain : nat -> list piecewise -> nat -> Prop :=
| chain_nil W : chain W [] W
| chain_cons l ls W' : held l -> chain (pw_out l) ls W' -> chain (pw_in l) (l :: ls) W'.

Lemma layer_out_local l v v' o : held l -> (o < pw_out l)%nat -> (forall i, (i < pw_in l)%nat -> v i = v' i) -> layer_out l v o = layer_out l v' o.
Proof.
  intros H Ho E. rewrite !layer_out_eq by auto. apply combine_ext. intros i Hi. now rewrite E.
Qed.
Lemma through_local W ls W' : chain W ls W' -> forall v v' o, (o < W')%nat -> (forall i, (i < W)%nat -> v i = v' i) -> through ls v o = through ls v' o.
Proof.
  induction 1 as [W|l ls W' H C IH]; intros v v' o Ho E; cbn [through]; auto.
  apply IH; auto. intros i Hi. now apply layer_out_local.
Qed.

Lemma same_layer l l' : held l -> held l' -> cfg_of l = cfg_of l' -> shape (pw_w l') = shape (pw_w l) /\ with_w l (pw_w l') = l'.
Proof.
  intros H H' E. apply held_wf in H, H'. destruct H as (_ & _ & _ & _ & P & Sw), H' as (_ & _ & _ & _ & P' & Sw').
  unfold cfg_of in E. injection E as E1 E2 E3 E4 E5 E6 E7. split; [congruence|].
  destruct l, l'; cbn in *. unfold with_w. cbn. congruence.
Qed.

Lemma load_layers nl dl h L Sl ls : NoDup L -> Forall2 (describes nl dl h) L Sl -> Forall2 (fun s l => s = SP (cfg_of l) /\ held l) Sl ls ->
  exists h', retrained h h' /\ Forall2 (fun k l => get h' k = OPiecewise l) L ls.
Proof.
  intros N D. revert ls. induction D as [|k s L Sl (Lk & D) Ds IH]; intros ls F.
  - inversion F; subst. exists h. split; [split; auto; intros; constructor|constructor].
  - inversion F as [|? l ? ls' (-> & Hl) F']; subst. inversion N as [|? ? Nk N']; subst.
    destruct (IH N' ls' F') as (h' & (Len & Rt) & G). destruct D as (l0 & E0 & H0 & C0).
    destruct (same_layer l0 l H0 Hl C0) as (Sw & Ew).
    exists (set_obj h' k (OPiecewise l)). rewrite <- Len in Lk. split.
    + split; [rewrite set_obj_length; auto|]. intros i Hi. destruct (Nat.eq_dec k i) as [<-|Ne].
      * rewrite get_set_same, E0 by auto. rewrite <- Ew. now constructor.
      * rewrite get_set_other by auto. now apply Rt.
    + constructor; [now apply get_set_same|]. clear - G Nk Lk. revert Nk. induction G as [|j l' L ls Gj G IH]; intros Nk; constructor.
      * rewrite get_set_other; auto. intros ->. apply Nk. now left.
      * apply IH. intros Hin. apply Nk. now right.
Qed.

Lemma run_through h L ls W W' : wf_heap h -> Forall2 (fun k l => get h k = OPiecewise l) L ls -> chain W ls W' ->
  forall x B, shape x = [B; W] -> exists y, run (call h) L x = Ok y /\ shape y = [B; W'] /\
    forall b o, (b < B)%nat -> (o < W')%nat -> at_ y [b; o] = through ls (row x b) o.
Proof.
  intros Wf F C. revert L F. induction C as [W|l ls W' Hl C IH]; intros L F x B Hx; inversion F as [|k ? L' ? Gk F']; subst; cbn [run].
  - exists x. auto.
  - destruct (forward_rows l x B Hl Hx) as (y & E & Hs & Hy).
    rewrite call_unfold, Gk by (auto; now apply (get_pw_lt _ _ _ Gk)). cbn [obj_forward]. rewrite E. cbn [rbind].
    destruct (IH L' F' y B Hs) as (z & Ez & Sz & Hz). exists z. split; auto. split; auto. intros b o Hb Ho. rewrite Hz by auto. cbn [through].
    apply (through_local _ _ _ C); auto. intros i Hi. unfold row at 1. now apply Hy.
Qed.

(** The arguments of a HighOrderMLP made of discontinuous or continuous layers only. *)
Definition layers_only (t : string) (n d m layers width si sh so : nat) : mlp_args :=
  mkMLP t (Int n) d m layers width 2 None None None false None None (Some (Int si)) (Some (Int so)) (Some (Int sh)) None false None "constant_random"%string 0.

Lemma layers_only_plain t n d m K H si sh so : refinable_type t -> (1 <= n)%nat -> (1 <= d)%nat -> (1 <= m)%nat -> (1 <= H)%nat ->
  (1 <= si)%nat -> (1 <= sh)%nat -> (1 <= so)%nat -> plain_mlp (layers_only t n d m K H si sh so) n n n si sh so.
Proof. intros. constructor; cbn; auto; try lra; repeat split; auto. Qed.

(** Any weights can be loaded into the layers; the network then computes the composition of the layers. *)
Lemma load_mlp g t n d m K H si sh so h0 l1 lh l2 c : wf_heap h0 ->
  (t = "continuous"%string /\ c = PiecewisePolynomial \/ t = "discontinuous"%string /\ c = PiecewiseDiscontinuousPolynomial) ->
  held l1 -> cfg_of l1 = pw_slot c n d H si None ->
  length lh = K -> Forall (fun l => held l /\ cfg_of l = pw_slot c n H H sh None) lh ->
  held l2 -> cfg_of l2 = pw_slot c n H m so None ->
  (1 <= sh)%nat ->
  exists net h1 h, HighOrderMLP g (layers_only t n d m K H si sh so) h0 = Ok (net, h1) /\ retrained h1 h /\
    forall x B, shape x = [B; d] -> exists y, call h net x = Ok y /\ shape y = [B; m] /\
      forall b o, (b < B)%nat -> (o < m)%nat -> at_ y [b; o] = through (l1 :: lh ++ [l2]) (row x b) o.
Proof.
  intros Wf Ht H1 C1 LK Hh H2 C2 Ssh. set (a := layers_only t n d m K H si sh so).
  pose proof (held_wf l1 H1) as (N1 & S1 & I1 & O1 & _). pose proof (held_wf l2 H2) as (N2 & S2 & I2 & O2 & _).
  pose proof C1 as C1'. pose proof C2 as C2'. unfold cfg_of, pw_slot in C1', C2'. injection C1' as E1 E2 E3 E4 E5 E6 E7. injection C2' as D1 D2 D3 D4 D5 D6 D7.
  rewrite E2 in N1. rewrite E3 in I1. rewrite E4 in O1. rewrite E5 in S1. rewrite D4 in O2. rewrite D5 in S2.
  assert (Rt : refinable_type t) by (unfold refinable_type; tauto).
  destruct (mlp_spec g a n n n si sh so h0 0%nat) as (net & e & dl & k1 & k2 & q & L & E & G & Q & Bt & (V1 & V2 & _) & Ln & Lq & _); auto.
  { apply layers_only_plain; auto. }
  { discriminate. }
  set (h1 := h0 ++ e) in *.
  assert (Sl : mlp_slots a n n n si sh so = map (fun l => SP (cfg_of l)) (l1 :: lh ++ [l2])).
  { unfold mlp_slots. cbn [map]. rewrite map_app. cbn [map app]. rewrite C1, C2.
    assert (Ly : forall n I O s per, layer_slot t n I O s per = SP (pw_slot c n I O s per)).
    { intros. destruct Ht as [(-> & ->)|(-> & ->)]; reflexivity. }
    assert (Dr : drop_slots a = []) by (unfold drop_slots; cbn; destruct Rlt_dec; [lra|reflexivity]).
    unfold hidden_slots. rewrite Dr. cbn [a layers_only ma_layer_type ma_layer_type_in or_string ma_normalization ma_non_linearity between_slots app ma_in_width ma_hidden_width ma_out_width ma_periodicity ma_hidden_layers].
    rewrite !Ly. f_equal. f_equal. subst K. clear - Hh. induction Hh as [|l lh (_ & Cl) Hh IH]; [reflexivity|]. cbn [length repeat concat map app]. now rewrite IH, Cl. }
  set (ls := l1 :: lh ++ [l2]) in *.
  assert (Hls : Forall held ls).
  { unfold ls. constructor; auto. apply Forall_app. split; auto. eapply Forall_impl; [|exact Hh]. cbn. tauto. }
  assert (F : Forall2 (fun s l => s = SP (cfg_of l) /\ held l) (mlp_slots a n n n si sh so) ls).
  { rewrite Sl. clear - Hls. induction Hls; cbn [map]; constructor; auto. }
  assert (Nd : NoDup L).
  { pose proof (b_leaves _ _ _ _ _ _ Bt) as N. assert (X : flat_map (leaves h1) L = L); [|rewrite X in N; exact N].
    pose proof (b_desc _ _ _ _ _ _ Bt) as D. rewrite Sl in D. clear - D. revert D. generalize ls. induction L as [|k L IH]; intros l D; auto.
    destruct l as [|x l]; [inversion D|]. cbn [map] in D. assert (D' : Forall2 (describes 0 dl h1) L (map (fun l => SP (cfg_of l)) l)) by now inversion D.
    assert (Dk : describes 0 dl h1 k (SP (cfg_of x))) by now inversion D. destruct Dk as (_ & (y & Ey & _)). cbn [flat_map]. unfold leaves at 1. rewrite Ey. cbn [app].
    f_equal. now apply (IH l). }
  destruct (load_layers 0 dl h1 L _ ls Nd (b_desc _ _ _ _ _ _ Bt) F) as (h & Rh & Gh).
  exists net, h1, h. split; [exact E|]. split; [exact Rh|].
  assert (Len : length h = length h1) by apply Rh.
  assert (Wh : wf_heap h) by (apply (retrained_wf h1); auto; apply Bt).
  assert (Gn : get h net = OMLP dl k1 k2 q) by (pose proof (retrained_same h1 h net Rh Ln) as X; rewrite G in X; exact X).
  assert (Gq : get h q = OSequential L) by (pose proof (retrained_same h1 h q Rh Lq) as X; rewrite Q in X; exact X).
  assert (Ch : chain d ls m).
  { unfold ls. rewrite <- E3. constructor; auto. rewrite E4. clear - Hh H2 D3 D4. induction Hh as [|l lh (Hl & Cl) Hh IH]; cbn [app].
    - rewrite <- D3. constructor; auto. rewrite D4. constructor.
    - unfold cfg_of, pw_slot in Cl. injection Cl as F1 F2 F3 F4 F5 F6 F7. rewrite <- F3 at 1. constructor; auto. now rewrite F4. }
  intros x B Hx. destruct (run_through h L ls d m Wh Gh Ch x B Hx) as (y & Ey & Sy & Hy).
  exists y. rewrite call_unfold, Gn by (auto; lia). cbn [obj_forward]. rewrite call_unfold, Gq by (auto; lia). auto.
Qed.

Lemma step_cfg n I O S w : cfg_of (with_w (new_piecewise PiecewiseDiscontinuousPolynomial n I O S 2 1 None (fun _ _ => 0)) w)
  = pw_slot PiecewiseDiscontinuousPolynomial n I O S None.
Proof. reflexivity. Qed.

Lemma first_only H f : (1 <= H)%nat -> rsum H (fun i => if Nat.eqb i 0 then f else 0) = f.
Proof. intros HH. rewrite (rsum_single H 0) by (try lia; intros i _ N; apply Nat.eqb_neq in N; now rewrite N). reflexivity. Qed.

(** Middle of segment [N] of [S]. *)
Lemma middle_in S N : (1 <= S)%nat -> (N < S)%nat -> in_segment S N (-1 + (2 * INR N + 1) / INR S).
Proof.
  intros HS HN. assert (PS := INR_pos S HS). assert (PI0 : 0 < / INR S) by now apply Rinv_0_lt_compat.
  split; [auto|]. unfold knot, Rdiv. rewrite S_INR. split; right; nra.
Qed.

Lemma through_app ls ls' v : through (ls ++ ls') v = through ls' (through ls v).
Proof. revert v. induction ls as [|l ls IH]; intros v; cbn; auto. Qed.

(** For any number of nodes, depth and hidden width a HighOrderMLP of discontinuous layers with enough segments can be
    given weights with which it is uniformly close to a given continuous function on the cube. *)
Theorem C83_mlp_universal : forall g n d m K H (f : nat -> (nat -> R) -> R) eps h0,
  wf_heap h0 -> (1 <= n)%nat -> (1 <= d)%nat -> (1 <= m)%nat -> (1 <= H)%nat ->
  (forall o, (o < m)%nat -> continuous_vec d (f o)) -> 0 < eps ->
  exists si sh so net h1 h,
    HighOrderMLP g (layers_only "discontinuous" n d m K H si sh so) h0 = Ok (net, h1) /\ retrained h1 h /\
    forall x B, shape x = [B; d] -> (forall b i, (b < B)%nat -> (i < d)%nat -> -1 <= at_ x [b; i] <= 1) ->
      exists y, call h net x = Ok y /\ shape y = [B; m] /\
        forall b o, (b < B)%nat -> (o < m)%nat -> Rabs (at_ y [b; o] - f o (row x b)) < eps.
Proof.
  intros g n d m K H f eps h0 Wf Hn Hd Hm HH Hf He.
  destruct (uniformly_continuous_all d m f eps Hf He) as (delta & Hdel & U).
  destruct (archimed (1 / delta)) as [Ar _].
  assert (Pd : 0 < 1 / delta) by (apply Rdiv_lt_0_compat; lra).
  set (S := Z.to_nat (up (1 / delta))).
  assert (Up : (0 < up (1 / delta))%Z) by (apply lt_IZR; lra).
  assert (HS : (1 <= S)%nat) by (unfold S; lia).
  assert (ES : 1 / delta < INR S) by (unfold S; rewrite INR_IZR_INZ, Z2Nat.id by lia; lra).
  assert (PS := INR_pos S HS).
  assert (IS : / INR S < delta).
  { apply (Rmult_lt_reg_r (INR S)); auto. rewrite Rinv_l by lra.
    apply (Rmult_lt_compat_l delta) in ES; auto. replace (delta * (1 / delta)) with 1 in ES by (field; lra). lra. }
  assert (HSd : (1 <= S ^ d)%nat) by (pose proof (Nat.pow_nonzero S d); lia).
  set (center := fun N i => knot S ((N / S ^ i) mod S) + / INR S).
  set (mid := fun N => -1 + (2 * INR N + 1) / INR (S ^ d)).
  destruct (step_layer n d H S (fun _ i s => 2 * INR s * INR S ^ i / INR (S ^ d) + (-1 + / INR (S ^ d)) / INR d)) as (w1 & W1 & L1); auto.
  destruct (step_layer n H H (S ^ d) (fun o i N => if Nat.eqb i 0 then mid N else 0)) as (wh & Wh & Lh); auto.
  destruct (step_layer n H m (S ^ d) (fun o i N => if Nat.eqb i 0 then f o (center N) else 0)) as (w2 & W2 & L2); auto.
  cbv zeta in L1, Lh, L2. set (l1 := with_w _ w1) in *. set (lh := with_w _ wh) in *. set (l2 := with_w _ w2) in *.
  assert (H1 : held l1) by (apply with_w_held; [apply new_held; lia|exact W1]).
  assert (H3 : held lh) by (apply with_w_held; [apply new_held; lia|exact Wh]).
  assert (H2 : held l2) by (apply with_w_held; [apply new_held; lia|exact W2]).
  destruct (load_mlp g "discontinuous" n d m K H S (S ^ d) (S ^ d) h0 l1 (repeat lh K) l2 PiecewiseDiscontinuousPolynomial Wf) as (net & h1 & h & E & Rt & P); auto.
  { apply repeat_length. }
  { apply Forall_forall. intros l Hl. apply repeat_spec in Hl. subst l. split; auto. }
  exists S, (S ^ d)%nat, (S ^ d)%nat, net, h1, h. split; auto. split; auto.
  intros x B Hx Hr. destruct (P x B Hx) as (y & Ey & Sy & Hy). exists y. split; auto. split; auto. intros b o Hb Ho. rewrite Hy by auto.
  set (v := row x b). assert (Hv : forall i, (i < d)%nat -> -1 <= v i <= 1) by (intros i Hi; now apply Hr).
  set (s := fun i => seg l1 (v i)).
  assert (Hs : forall i, in_segment S (s i) (v i)) by (intros i; apply (seg_in l1 (v i) eq_refl HS)).
  assert (Lt : forall i, (i < d)%nat -> (s i < S)%nat) by (intros i _; apply Hs).
  assert (NL := number_lt S d s Lt). set (N := number S d s) in *.
  assert (Hh : forall j, (j < H)%nat -> layer_out l1 v j = mid N).
  { intros j Hj. rewrite (L1 v j s) by (auto; lia). now apply cell_value. }
  assert (Hk : forall k j, (j < H)%nat -> through (repeat lh k) (layer_out l1 v) j = mid N).
  { clear - Hh Lh HH HSd NL. generalize (layer_out l1 v), Hh. intros u Hu k. revert u Hu. induction k as [|k IH]; intros u Hu j Hj; cbn [repeat through]; auto.
    apply IH; auto. intros i Hi. rewrite (Lh u i (fun _ => N)) by (auto; intros q Hq; rewrite Hu by auto; now apply middle_in). now apply first_only. }
  cbn [through]. rewrite through_app. cbn [through].
  rewrite (L2 _ o (fun _ => N)) by (auto; intros q Hq; rewrite Hk by auto; now apply middle_in).
  rewrite first_only by auto. apply U; auto. intros i Hi. unfold center, N. rewrite number_digit by auto.
  pose proof (local_range S (s i) (v i) HS (Hs i) (Hv i Hi)) as T.
  pose proof (seg_global_local S (s i) (v i) HS) as G. unfold seg_global in G.
  replace (knot S (s i) + / INR S - v i) with (- seg_local S (s i) (v i) * / INR S) by (rewrite <- G at 2; field; lra).
  assert (0 < / INR S) by now apply Rinv_0_lt_compat.
  rewrite Rabs_mult, (Rabs_pos_eq (/ INR S)), Rabs_Ropp by lra.
  assert (Rabs (seg_local S (s i) (v i)) <= 1) by (apply Rabs_le; lra). nra.
Qed.
Print Assumptions C83_mlp_universal.

(** The 2-2-1 network of the xor example matches its function exactly off the axes. *)
Theorem C82_mlp_xor_exact : forall g n h0, wf_heap h0 -> (1 <= n)%nat ->
  exists net h1 h, HighOrderMLP g (layers_only "discontinuous" n 2 1 0 2 2 2 2) h0 = Ok (net, h1) /\ retrained h1 h /\
    forall x B, shape x = [B; 2%nat] -> exists y, call h net x = Ok y /\ shape y = [B; 1%nat] /\
      forall b, (b < B)%nat -> at_ x [b; 0%nat] <> 0 -> at_ x [b; 1%nat] <> 0 ->
        at_ y [b; 0%nat] = xor (at_ x [b; 0%nat]) (at_ x [b; 1%nat]).
Proof.
  intros g n h0 Wf Hn. destruct (C82_xor_exact_with_hidden_layer n Hn) as (l1 & l2 & H1 & H2 & T1 & T2 & N1 & N2 & S1 & S2 & I1 & O1 & I2 & O2 & LL1 & LL2 & P1 & P2 & X).
  destruct (load_mlp g "discontinuous" n 2 1 0 2 2 2 2 h0 l1 [] l2 PiecewiseDiscontinuousPolynomial Wf) as (net & h1 & h & E & Rt & P); auto.
  { unfold cfg_of. now rewrite T1, N1, S1, I1, O1, LL1, P1. }
  { unfold cfg_of. now rewrite T2, N2, S2, I2, O2, LL2, P2. }
  exists net, h1, h. split; auto. split; auto. intros x B Hx. destruct (P x B Hx) as (y & Ey & Sy & Hy). exists y. split; auto. split; auto.
  intros b Hb A0 A1. rewrite Hy by (auto; lia). rewrite <- X by auto. cbn [app through].
  apply layer_out_local; [auto|lia|]. intros i Hi. apply layer_out_local; [auto|lia|]. intros j Hj. rewrite I1 in Hj. unfold row, pair_. destruct j as [|[|j]]; auto; lia.
Qed.
Print Assumptions C82_mlp_xor_exact.

Example C83_mlp_case : exists si sh so net h1 h,
  HighOrderMLP (fun _ _ => 0) (layers_only "discontinuous" 3 2 1 4 7 si sh so) [] = Ok (net, h1) /\ retrained h1 h /\
  forall x y, -1 <= x <= 1 -> -1 <= y <= 1 -> exists z, call h net (one_sample 2 (pair_ x y)) = Ok z /\ Rabs (at_ z [0; 0]%nat - x * y) < 1 / 100.
Proof.
  destruct (C83_mlp_universal (fun _ _ => 0) 3 2 1 4 7 (fun _ v => v 0%nat * v 1%nat) (1/100) []) as (si & sh & so & net & h1 & h & E & Rt & P);
    try lia; try lra; [apply wf_nil|intros o _; apply ContinuityFacts.cv_mult; apply ContinuityFacts.cv_proj; lia|].
  exists si, sh, so, net, h1, h. split; auto. split; auto. intros x y Hx Hy.
  destruct (P (one_sample 2 (pair_ x y)) 1%nat eq_refl) as (z & Ez & _ & Hz).
  { intros b i Hb Hi. cbn. unfold pair_. destruct (Nat.eqb i 0); auto. }
  exists z. split; auto. apply (Hz 0%nat 0%nat); lia.
Qed.
