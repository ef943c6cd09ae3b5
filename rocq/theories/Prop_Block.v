(** * The block classifier of examples/block_mnist.py (C90). *)
From Coq Require Import String Reals Lra ZArith List Lia Bool Arith Permutation.
From Verif Require Import Spec Tensor Utils Normalization LagrangePolynomial Basis PolynomialLayers Refine ProductLayer LagrangeND
  Layers Networks LayerNorm Examples Observe ObserveNet SumFacts TensorFacts NormFacts NDFacts LayerFacts SegmentFacts LayerProofs HeapFacts NetFacts NetCopy NetTypes
  AttentionFacts Prop_Norm Prop_ND Prop_Factory Prop_MLP Prop_Rows Prop_Attention Modules.
Import ListNotations.
Local Open Scope R_scope.

(** ** The model: one function of a pixel (grey value, row, column) *)

(** What the Sequential of layer and normalisation does. *)
Definition point_function (f : tensor R -> res (tensor R)) (F : (nat -> R) -> nat -> R) : Prop :=
  (forall u v, (forall d, (d < 3)%nat -> u d = v d) -> forall o, (o < 10)%nat -> F u o = F v o) /\
  forall x N, (1 <= N)%nat -> shape x = [N; 1; 3]%nat -> exists y, f x = Ok y /\ shape y = [N; 10]%nat /\
    forall p o, (p < N)%nat -> (o < 10)%nat -> at_ y [p; o] = F (fun d => at_ x [p; 0%nat; d]) o.

Lemma lag_nd_ext n len j u v : (forall d, (d < length n)%nat -> u d = v d) -> lag_nd n len j u = lag_nd n len j v.
Proof. intros H. unfold lag_nd. apply rprod_ext. intros d Hd. now rewrite H. Qed.

Lemma poly_point n l w mag draw : new_PolynomialND (Ints [3; n; n]%nat) 1 10 2 mag None draw = Ok l -> shape w = shape (pn_w l) ->
  exists F, point_function (PolynomialND_forward (mkPND (pn_poly l) (pn_periodicity l) w)) F /\
    (w = pn_w l -> (1 <= n)%nat -> forall u v o, (o < 10)%nat -> F u o = F v o).
Proof.
  intros E Hw. unfold new_PolynomialND in E. destruct (basis_nd_spec [3; n; n]%nat 2) as (p & Ep & Hp); [discriminate|]. rewrite Ep in E. cbn [rbind] in E.
  injection E as <-. cbn [pn_w pn_poly pn_periodicity] in *.
  assert (Sw : shape w = [10; 1; prodn [3; n; n]]%nat). { rewrite Hw. cbn. f_equal. f_equal. f_equal. unfold LagrangeBasisND in Ep. destruct nd_compute_indexes; [|discriminate]. cbn in Ep. injection Ep as <-. reflexivity. }
  exists (fun u o => (-1) ^ degree [3; n; n]%nat * rsum 1 (fun i => nsum [3; n; n]%nat (fun j => lag_nd [3; n; n]%nat 2 j u * at_ w [o; i; ravel [3; n; n]%nat j]))).
  split; [split|].
  - intros u v H o Ho. apply Rmult_eq_compat_l, rsum_ext. intros i Hi. apply nsum_ext. intros j Hj. f_equal. now apply lag_nd_ext.
  - intros x N HN Hx. destruct (nd_interpolate_spec [3; n; n]%nat 2 (tmap (apply_periodicity None) x) w N 1 3 10) as (p' & y & Ep' & Ey & Sy & V); auto; [discriminate|].
    rewrite Ep in Ep'. injection Ep' as <-. exists y. split; [exact Ey|]. split; [exact Sy|]. intros q o Hq Ho. rewrite V by (auto; lra). apply Rmult_eq_compat_l.
    apply rsum_ext. intros i Hi. apply nsum_ext. intros j Hj. f_equal. apply lag_nd_ext. intros d Hd. cbn. now replace i with 0%nat by lia.
  - intros -> Hn u v o Ho. apply Rmult_eq_compat_l, rsum_ext. intros i Hi.
    assert (Q : forall u, nsum [3; n; n]%nat (fun j => lag_nd [3; n; n]%nat 2 j u * at_ (constant_random_initialization 10 1 (nd_num_basis p) mag draw) [o; i; ravel [3; n; n]%nat j]) =
                 at_ (constant_random_initialization 10 1 (nd_num_basis p) mag draw) [o; i; 0%nat]).
    { intros t. rewrite (nsum_ext _ _ (fun j => at_ (constant_random_initialization 10 1 (nd_num_basis p) mag draw) [o; i; 0%nat] * lag_nd [3; n; n]%nat 2 j t)).
      - rewrite nsum_scal, lag_nd_sum; [ring|lra|]. repeat constructor; auto.
      - intros j Hj. rewrite Rmult_comm. reflexivity. }
    now rewrite !Q.
Qed.

Lemma piecewise_point n s l : (1 <= n)%nat -> held_nd [3; n; n]%nat [s; s; s] 1 10 2 l ->
  exists F, point_function (PiecewiseND_forward l) F /\ forall u o o', F u o = F u o'.
Proof.
  intros Hn Hl. destruct (held_nd_wf _ _ _ _ _ _ Hl) as (W & En & Es & Ei & Eo & El).
  exists (fun u (_ : nat) => (-1) ^ degree (pd_n l) * rsum 1 (fun i =>
        nsum (pd_n l) (fun j =>
          lag_nd (pd_n l) (pd_length l) j (fun d => x_local (pd_axis l d) (u d) (Z.of_nat (seg (pd_axis l d) (u d)))) *
          at_ (pd_w l) [ravel (pd_segments l) (pd_cell l u) * prodn (pd_n l) + ravel (pd_n l) j]%nat))).
  split; [split|reflexivity].
  - intros u v H o Ho. apply Rmult_eq_compat_l, rsum_ext. intros i Hi. apply nsum_ext. intros j Hj. f_equal.
    + apply lag_nd_ext. intros d Hd. rewrite En in Hd. now rewrite H.
    + replace (pd_cell l v) with (pd_cell l u); [reflexivity|]. unfold pd_cell. apply map_ext_in. intros d Hd. apply in_seq in Hd. rewrite Es in Hd. cbn in Hd. now rewrite H by lia.
  - intros x N HN Hx. destruct (piecewise_nd_forward l x N 1 W HN (le_n 1)) as (y & Ey & Sy & V); [rewrite En; exact Hx|].
    exists y. split; [exact Ey|]. split; [now rewrite Eo in Sy|]. intros q o Hq Ho. rewrite V by (auto; try lia; rewrite El; lra). apply Rmult_eq_compat_l, rsum_ext. intros i Hi. replace i with 0%nat by lia. reflexivity.
Qed.

Lemma norm_rows name f : block_normalization name = Ok f ->
  exists F, (forall u v, (forall i, (i < 10)%nat -> u i = v i) -> forall o, (o < 10)%nat -> F u o = F v o) /\
    (forall x B, shape x = [B; 10]%nat -> exists y, f x = Ok y /\ shape y = [B; 10]%nat /\
       forall b o, (b < B)%nat -> (o < 10)%nat -> at_ y [b; o] = F (row x b) o /\ -1 < at_ y [b; o] < 1) /\
    (forall u, (forall i i', (i < 10)%nat -> (i' < 10)%nat -> u i = u i') -> forall o o', (o < 10)%nat -> (o' < 10)%nat -> F u o = F u o').
Proof.
  intros E. destruct (C89_normalisations 10 (1 / 1000000)) as (A & _ & C & _); [lia|lra|]. unfold block_normalization in E.
  assert (Vx : forall (x : tensor R) B, shape x = [B; 10]%nat -> forall b o, (b < B)%nat -> (o < 10)%nat -> valid (shape x) [b; o]) by (intros x B -> b o Hb Ho; cbn; tauto).
  assert (Cn : forall x B b o, shape x = [B; 10]%nat -> (b < B)%nat -> (o < 10)%nat -> forall jx, in_slice (shape x) (dim_of x 1) [b; o] jx -> exists i, (i < 10)%nat /\ jx = [b; i]).
  { intros x B b o Hx Hb Ho jx (V & S). rewrite Hx in V. unfold dim_of in S. rewrite Hx in S. destruct jx as [|b' [|i [|]]]; cbn in V; try tauto. exists i. split; [tauto|].
    f_equal. symmetry. cbn in S. destruct S as (_ & S). apply (S 0%nat). lia. }
  destruct (String.eqb name "max_abs").
  - injection E as <-. destruct A as (F & X & H). exists F. split; auto. split.
    + intros x B Hx. destruct (H x B Hx) as (y & Ey & Sy & V).
      exists y. repeat (split; [assumption|]). intros b o Hb Ho. split; [now apply V|].
      destruct (C24_max_abs x (1 / 1000000) 1) as (y' & Ey' & _ & Q); [red; rewrite Hx; cbn; lia|unfold dim_of; rewrite Hx; cbn; discriminate|].
      rewrite Ey in Ey'. injection Ey' as <-. destruct (Q [b; o] (Vx x B Hx b o Hb Ho)) as (M & _ & _ & Z & _). apply Z. lra.
    + intros u Hu o o' Ho Ho'. set (x := mkT [1; 10]%nat (fun ix => u (nth 1 ix 0%nat))). destruct (H x 1%nat eq_refl) as (y & Ey & Sy & V).
      destruct (C24_max_abs x (1 / 1000000) 1) as (y' & Ey' & _ & Q); [red; cbn; lia|cbn; discriminate|].
      rewrite Ey in Ey'. injection Ey' as <-.
      assert (Z : forall k, (k < 10)%nat -> F u k = u 0%nat / (Rabs (u 0%nat) + 1 / 1000000)).
      { intros k Hk. destruct (Q [0; k]%nat (Vx x 1%nat eq_refl 0%nat k (le_n 1) Hk)) as (M & ((jx & Hj & EM) & _) & Z & _).
        destruct (Cn x 1%nat 0%nat k eq_refl (le_n 1) Hk jx Hj) as (i & Hi & ->). rewrite (V 0%nat k (le_n 1) Hk) in Z.
        change (row x 0) with u in Z. rewrite Z, <- EM. change (at_ x [0%nat; k]) with (u k). change (at_ x [0%nat; i]) with (u i).
        rewrite (Hu k 0%nat), (Hu i 0%nat) by lia. reflexivity. }
      now rewrite !Z.
  - destruct (String.eqb name "max_center"); [|discriminate]. injection E as <-. destruct C as (F & X & H). exists F. split; auto. split.
    + intros x B Hx. destruct (H x B Hx) as (y & Ey & Sy & V).
      exists y. repeat (split; [assumption|]). intros b o Hb Ho. split; [now apply V|].
      destruct (C25_max_center x (1 / 1000000) 1) as (y' & Ey' & _ & Q); [red; rewrite Hx; cbn; lia|unfold dim_of; rewrite Hx; cbn; discriminate|].
      rewrite Ey in Ey'. injection Ey' as <-. destruct (Q [b; o] (Vx x B Hx b o Hb Ho)) as (M & m & _ & _ & _ & Z). apply Z. lra.
    + intros u Hu o o' Ho Ho'. set (x := mkT [1; 10]%nat (fun ix => u (nth 1 ix 0%nat))). destruct (H x 1%nat eq_refl) as (y & Ey & Sy & V).
      destruct (C25_max_center x (1 / 1000000) 1) as (y' & Ey' & _ & Q); [red; cbn; lia|cbn; discriminate|].
      rewrite Ey in Ey'. injection Ey' as <-.
      assert (Z : forall k, (k < 10)%nat -> F u k = (u 0%nat - (u 0%nat + u 0%nat) / 2) / ((u 0%nat - u 0%nat) / 2 + 1 / 1000000)).
      { intros k Hk. destruct (Q [0; k]%nat (Vx x 1%nat eq_refl 0%nat k (le_n 1) Hk)) as (M & m & ((jx & Hj & EM) & _) & ((jy & Hj' & Em) & _) & Z & _).
        destruct (Cn x 1%nat 0%nat k eq_refl (le_n 1) Hk jx Hj) as (i & Hi & ->), (Cn x 1%nat 0%nat k eq_refl (le_n 1) Hk jy Hj') as (i' & Hi' & ->).
        rewrite (V 0%nat k (le_n 1) Hk) in Z.
        change (row x 0) with u in Z. rewrite Z, <- EM, <- Em. change (at_ x [0%nat; k]) with (u k). change (at_ x [0%nat; i]) with (u i). change (at_ x [0%nat; i']) with (u i').
        rewrite (Hu k 0%nat), (Hu i 0%nat), (Hu i' 0%nat) by lia. reflexivity. }
      now rewrite !Z.
Qed.

Definition pixel (x : tensor R) (b p d : nat) : R := at_ x [b; p; d].

Lemma block_sum h model F : point_function (call h model) F -> forall x B P, (1 <= B)%nat -> (1 <= P)%nat -> shape x = [B; P; 3]%nat ->
  exists y, block_forward h model x = Ok y /\ shape y = [B; 10]%nat /\
    forall b o, (b < B)%nat -> (o < 10)%nat -> at_ y [b; o] = rsum P (fun p => F (pixel x b p) o).
Proof.
  intros (X & H) x B P HB HP Hx. unfold block_forward. rewrite Hx.
  destruct (view_infer_ok x [] [1; 3]%nat (B * P)) as (xin & E1 & S1 & V1); [cbn; lia|unfold numel; rewrite Hx; cbn; lia|]. rewrite E1. cbn [rbind].
  destruct (H xin (B * P)%nat) as (r & Er & Sr & Vr); [nia|exact S1|]. rewrite Er. cbn [rbind].
  destruct (view_infer_ok r [B; P] [] 10) as (z & E2 & S2 & V2); [cbn; nia|unfold numel; rewrite Sr; cbn; nia|]. rewrite E2. cbn [rbind].
  rewrite S2. eexists. split; [reflexivity|]. split; [reflexivity|]. intros b o Hb Ho. cbn [at_]. apply rsum_ext. intros p Hp.
  assert (L : (b * P + p < B * P)%nat) by nia.
  rewrite (V2 [b; p; o] [b * P + p; o]%nat); [|rewrite Sr; cbn; auto|rewrite Sr; cbn; nia]. rewrite Vr by auto. apply X; auto. intros d Hd.
  unfold pixel. apply V1; [rewrite Hx; cbn; auto|rewrite Hx; cbn; nia].
Qed.

Definition block_args (n s : nat) : fc_args := mkArgs (Ints [3; n; n]%nat) 1 10 (Some (Int s)) None None None 2 false "constant_random"%string.
Lemma block_layer g t n s h : (1 <= n)%nat -> (1 <= s)%nat -> In t ("continuous_nd" :: nd_names)%string ->
  exists o, high_order_fc_layers g t (block_args n s) h = Ok (length h, h ++ [o]) /\ refs o = [] /\
    forall o' c, reweighted o o' -> exists F, point_function (obj_forward c o') F /\
      (o' = o -> forall u v k, (k < 10)%nat -> F u k = F v k) /\
      (t = "continuous_nd"%string -> forall u k k', F u k = F u k').
Proof.
  intros Hn Hs Ht. destruct Ht as [<-|Ht].
  - destruct (new_nd_spec [3; n; n]%nat [s; s; s] 1 10 2 None 1 (fun i o => g (length h) [i; o]) (g (length h))) as (p & Ep & E); [cbn; lia|reflexivity|now left|].
    set (l := mkPwND _ _ _ _ _ _ _ _) in E. exists (OPiecewiseND l). split; [|split; [reflexivity|]].
    { transitivity (make_piecewise_nd g (block_args n s) h); [reflexivity|]. unfold make_piecewise_nd. cbn [block_args fa_n fa_segments fa_in fa_out fa_length fa_weight_magnitude default].
      match goal with |- match ?t with _ => _ end = _ => replace t with (Ok l : res piecewise_nd) by (rewrite <- E; reflexivity) end. reflexivity. }
    assert (Hold : forall w, shape w = shape (pd_w l) -> held_nd [3; n; n]%nat [s; s; s] 1 10 2
      (mkPwND (pd_dimensions l) (pd_n l) (pd_segments l) (pd_in l) (pd_out l) (pd_length l) (pd_basis l) w)).
    { intros w Hw. split; [cbn; lia|]. split; [reflexivity|]. split; [cbn; intuition lia|]. split; [cbn; intuition lia|]. split; [lia|]. split; [lia|].
      eexists None, 1, _, _, l, w. split; [now left|]. split; [exact E|]. split; [exact Hw|]. reflexivity. }
    intros o' c R. assert (O : exists w, shape w = shape (pd_w l) /\
      o' = OPiecewiseND (mkPwND (pd_dimensions l) (pd_n l) (pd_segments l) (pd_in l) (pd_out l) (pd_length l) (pd_basis l) w)).
    { inversion R; subst; [eauto|]. exists (pd_w l). split; reflexivity. }
    destruct O as (w & Hw & ->). destruct (piecewise_point n s _ Hn (Hold w Hw)) as (F & PF & Q). exists F. split; [exact PF|]. split; [|auto].
    intros Eo. injection Eo as ->.
    assert (K : forall u k, (k < 10)%nat -> F u k = (-1) ^ total_degree [3; n; n]%nat * (INR 1 * ((2 * g (length h) [0; 0]%nat - 1) * 1 / INR 1))).
    { intros u k Hk. set (x := mkT [1; 1; 3]%nat (fun ix => u (nth 2 ix 0%nat))).
      destruct (C41_fresh_layer_constant [3; n; n]%nat [s; s; s] 1 10 2 None 1 (fun i o => g (length h) [i; o]) (g (length h)) x 1 1) as (l' & y & El' & Ey & V); try lia; try lra;
        [cbn; lia|reflexivity|cbn; intuition lia|cbn; intuition lia|now left|reflexivity|].
      assert (l' = l) by congruence. subst l'. destruct PF as (_ & PF). destruct (PF x 1%nat (le_n 1) eq_refl) as (y' & Ey' & _ & V').
      assert (y' = y). { change (PiecewiseND_forward l x = Ok y') in Ey'. rewrite Ey in Ey'. now injection Ey'. } subst y'.
      rewrite <- (V 0%nat k) by lia. rewrite (V' 0%nat k) by lia. reflexivity. }
    intros u v k Hk. now rewrite !K.
  - destruct (basis_nd_spec [3; n; n]%nat 2) as (p & Ep & _); [discriminate|].
    assert (E : exists l, new_PolynomialND (Ints [3; n; n]%nat) 1 10 2 1 None (fun o i => g (length h) [o; i]) = Ok l) by (unfold new_PolynomialND; rewrite Ep; eexists; reflexivity).
    destruct E as (l & E). exists (OPolyND l). split; [|split; [reflexivity|]].
    { cbn in Ht. transitivity (make_polynomial_nd g (block_args n s) h).
      - destruct Ht as [<-|[<-|[<-|[<-|[]]]]]; reflexivity.
      - unfold make_polynomial_nd. cbn [fa_n fa_in fa_out fa_length fa_weight_magnitude fa_periodicity block_args default]. rewrite E. reflexivity. }
    intros o' c R. assert (O : exists w, shape w = shape (pn_w l) /\ o' = OPolyND (mkPND (pn_poly l) (pn_periodicity l) w)).
    { inversion R; subst; [eauto|]. exists (pn_w l). split; [reflexivity|]. now destruct l. }
    destruct O as (w & Hw & ->). destruct (poly_point n l w _ _ E Hw) as (F & PF & Q). exists F. split; [exact PF|]. split.
    + intros Eo. assert (w = pn_w l) by (destruct l; injection Eo; auto). auto.
    + intros ->. exfalso. cbn in Ht. intuition discriminate.
Qed.

(** The objects a block network consists of, and what calling it does. *)
Lemma block_net g t n s norm h0 : (1 <= n)%nat -> (1 <= s)%nat -> In t ("continuous_nd" :: nd_names)%string -> In norm ["max_abs"; "max_center"]%string ->
  wf_heap h0 -> exists model h, new_block_net g t n s norm h0 = Ok (model, h) /\
  forall h', retrained h h' -> exists F, point_function (call h' model) F /\ (forall u o, (o < 10)%nat -> -1 < F u o < 1) /\
    (h' = h -> forall u v o, (o < 10)%nat -> F u o = F v o) /\
    (t = "continuous_nd"%string -> forall u o o', (o < 10)%nat -> (o' < 10)%nat -> F u o = F u o').
Proof.
  intros Hn Hs Ht Hm W0. destruct (block_layer g t n s h0 Hn Hs Ht) as (o & E & Ro & K).
  assert (exists f, block_normalization norm = Ok f) as (f & Ef) by (destruct Hm as [<-|[<-|[]]]; cbn; eauto).
  destruct (norm_rows norm f Ef) as (G & XG & HG & CG).
  exists (length ((h0 ++ [o]) ++ [OModule f []])), (((h0 ++ [o]) ++ [OModule f []]) ++ [OSequential [length h0; length (h0 ++ [o])]]). split.
  { unfold new_block_net. fold (block_args n s). unfold mthen at 1. rewrite E. unfold mlift. rewrite Ef. reflexivity. }
  set (h := _ ++ [OSequential _]). intros h' R.
  assert (L : length h = (length h0 + 3)%nat) by (unfold h; rewrite !app_length; cbn; lia).
  assert (W : wf_heap h).
  { unfold h. apply wf_snoc; [apply wf_snoc; [apply wf_snoc; [exact W0|rewrite Ro; intros j []]|intros j []]|].
    intros j [<-|[<-|[]]]; rewrite !app_length; cbn; lia. }
  assert (W' : wf_heap h') by now apply (retrained_wf h).
  assert (L' : length h' = (length h0 + 3)%nat) by (destruct R as (-> & _); exact L).
  assert (G0 : get h (length h0) = o). { unfold h. rewrite get_app_l, get_app_l, get_last by (rewrite ?app_length; cbn; lia). reflexivity. }
  assert (G1 : get h (length h0 + 1) = OModule f []). { unfold h. rewrite get_app_l by (rewrite !app_length; cbn; lia). replace (length h0 + 1)%nat with (length (h0 ++ [o])) by (rewrite app_length; cbn; lia). apply get_last. }
  assert (G2 : get h (length h0 + 2) = OSequential [length h0; length h0 + 1]%nat).
  { unfold h. replace (length h0 + 2)%nat with (length ((h0 ++ [o]) ++ [OModule f []])) by (rewrite !app_length; cbn; lia). rewrite get_last, app_length. cbn. now rewrite Nat.add_comm. }
  assert (G1' : get h' (length h0 + 1) = OModule f []). { pose proof (proj2 R (length h0 + 1)%nat ltac:(lia)) as Q. rewrite G1 in Q. now inversion Q. }
  assert (G2' : get h' (length h0 + 2) = OSequential [length h0; length h0 + 1]%nat). { pose proof (proj2 R (length h0 + 2)%nat ltac:(lia)) as Q. rewrite G2 in Q. now inversion Q. }
  pose proof (proj2 R (length h0) ltac:(lia)) as Q. rewrite G0 in Q. destruct (K _ (call h') Q) as (F & (XF & PF) & Fr & Cn).
  replace (length ((h0 ++ [o]) ++ [OModule f []])) with (length h0 + 2)%nat by (rewrite !app_length; cbn; lia).
  assert (PN : forall x N, (1 <= N)%nat -> shape x = [N; 1; 3]%nat -> exists y, call h' (length h0 + 2) x = Ok y /\ shape y = [N; 10]%nat /\
    forall p k, (p < N)%nat -> (k < 10)%nat -> at_ y [p; k] = G (F (fun d => at_ x [p; 0%nat; d])) k /\ -1 < at_ y [p; k] < 1).
  { intros x N HN Hx. destruct (PF x N HN Hx) as (y & Ey & Sy & V). destruct (HG y N Sy) as (z & Ez & Sz & Vz).
    exists z. split; [|split; [exact Sz|]].
    - rewrite call_unfold by (auto; lia). rewrite G2'. cbn [obj_forward run]. rewrite call_unfold by (auto; lia). rewrite Ey. cbn [rbind].
      rewrite call_unfold by (auto; lia). rewrite G1'. cbn [obj_forward]. rewrite Ez. reflexivity.
    - intros p k Hp Hk. destruct (Vz p k Hp Hk) as (V1 & V2). split; [|exact V2]. rewrite V1. apply XG; auto. intros i Hi. unfold row. now rewrite V. }
  exists (fun u => G (F u)). split; [split|split; [|split]].
  - intros u v H k Hk. apply XG; auto.
  - intros x N HN Hx. destruct (PN x N HN Hx) as (y & Ey & Sy & V). exists y. repeat (split; [assumption|]). intros p k Hp Hk. now apply V.
  - intros u k Hk. destruct (PN (mkT [1; 1; 3]%nat (fun ix => u (nth 2 ix 0%nat))) 1%nat (le_n 1) eq_refl) as (y & _ & _ & V).
    destruct (V 0%nat k (le_n 1) Hk) as (V1 & V2). rewrite V1 in V2. exact V2.
  - intros -> u v k Hk. apply XG; auto.
  - intros -> u k k' Hk Hk'. apply CG; auto.
Qed.

(** ** C90: what the classifier computes *)

(** A network built by examples/block_mnist.py with layer type [t], whose weights have been given any values. *)
Definition block_classifier (t : string) (h : heap) (model : nat) : Prop :=
  exists g n s norm h0 h1, (1 <= n)%nat /\ (1 <= s)%nat /\ In t ("continuous_nd" :: nd_names)%string /\ In norm ["max_abs"; "max_center"]%string /\
    wf_heap h0 /\ new_block_net g t n s norm h0 = Ok (model, h1) /\ retrained h1 h.

Lemma block_classifier_net t h model : block_classifier t h model -> exists F, point_function (call h model) F /\ (forall u o, (o < 10)%nat -> -1 < F u o < 1) /\
  (t = "continuous_nd"%string -> forall u o o', (o < 10)%nat -> (o' < 10)%nat -> F u o = F u o').
Proof.
  intros (g & n & s & norm & h0 & h1 & Hn & Hs & Ht & Hm & W & E & R). destruct (block_net g t n s norm h0 Hn Hs Ht Hm W) as (model' & h1' & E' & K).
  rewrite E in E'. injection E' as <- <-. destruct (K h R) as (F & P & Bd & _ & C). eauto.
Qed.

(** The logits are sums, over the pixels, of one function of (grey value, row, column) with values in (-1, 1). *)
Theorem C90_logits : forall t h model, block_classifier t h model ->
  exists F : (nat -> R) -> nat -> R,
    (forall u v, (forall d, (d < 3)%nat -> u d = v d) -> forall o, (o < 10)%nat -> F u o = F v o) /\
    (forall u o, (o < 10)%nat -> -1 < F u o < 1) /\
    forall x B P, (1 <= B)%nat -> (1 <= P)%nat -> shape x = [B; P; 3]%nat ->
      exists y, block_forward h model x = Ok y /\ shape y = [B; 10]%nat /\
        forall b o, (b < B)%nat -> (o < 10)%nat ->
          at_ y [b; o] = rsum P (fun p => F (pixel x b p) o) /\ Rabs (at_ y [b; o]) < INR P.
Proof.
  intros t h model C. destruct (block_classifier_net t h model C) as (F & PF & Bd & _). exists F. split; [apply PF|]. split; [exact Bd|].
  intros x B P HB HP Hx. destruct (block_sum h model F PF x B P HB HP Hx) as (y & Ey & Sy & V). exists y. repeat (split; [assumption|]).
  intros b o Hb Ho. split; [now apply V|]. rewrite V by auto. clear - HP Bd Ho. induction P as [|P IH]; [lia|]. cbn [rsum]. rewrite S_INR.
  specialize (Bd (pixel x b P) o Ho). destruct P as [|P].
  - cbn. apply Rabs_def1; lra.
  - specialize (IH ltac:(lia)). apply Rabs_def2 in IH. apply Rabs_def1; lra.
Qed.
Print Assumptions C90_logits.

(** The network is built, for every layer type the example accepts. *)
Theorem C90_construction : forall g t n s norm h0, (1 <= n)%nat -> (1 <= s)%nat -> In t ("continuous_nd" :: nd_names)%string ->
  In norm ["max_abs"; "max_center"]%string -> wf_heap h0 ->
  exists model h, new_block_net g t n s norm h0 = Ok (model, h) /\ block_classifier t h model /\
    (* before training all images get the same logits *)
    exists c : nat -> R, forall x B P, (1 <= B)%nat -> (1 <= P)%nat -> shape x = [B; P; 3]%nat ->
      exists y, block_forward h model x = Ok y /\ forall b o, (b < B)%nat -> (o < 10)%nat -> at_ y [b; o] = INR P * c o.
Proof.
  intros g t n s norm h0 Hn Hs Ht Hm W. destruct (block_net g t n s norm h0 Hn Hs Ht Hm W) as (model & h & E & K).
  exists model, h. split; [exact E|]. split. { exists g, n, s, norm, h0, h. repeat (split; [assumption|]). apply retrained_refl. }
  destruct (K h (retrained_refl h)) as (F & PF & _ & Fr & _). exists (F (fun _ => 0)). intros x B P HB HP Hx.
  destruct (block_sum h model F PF x B P HB HP Hx) as (y & Ey & Sy & V). exists y. split; [exact Ey|]. intros b o Hb Ho. rewrite V by auto.
  rewrite (rsum_ext _ _ (fun _ => F (fun _ => 0) o)) by (intros; now apply Fr). apply rsum_const.
Qed.
Print Assumptions C90_construction.

(** Shuffling the pixels of the images (with their coordinates), the same or another way for each image, changes nothing. *)
Theorem C90_pixel_order : forall t h model x x' B P (pi : nat -> nat -> nat), block_classifier t h model -> (1 <= B)%nat -> (1 <= P)%nat ->
  shape x = [B; P; 3]%nat -> shape x' = [B; P; 3]%nat -> (forall b, (b < B)%nat -> Permutation (map (pi b) (seq 0 P)) (seq 0 P)) ->
  (forall b p d, (b < B)%nat -> (p < P)%nat -> (d < 3)%nat -> at_ x' [b; p; d] = at_ x [b; pi b p; d]) ->
  exists y y', block_forward h model x = Ok y /\ block_forward h model x' = Ok y' /\
    forall b o, (b < B)%nat -> (o < 10)%nat -> at_ y' [b; o] = at_ y [b; o].
Proof.
  intros t h model x x' B P pi C HB HP Hx Hx' Hpi H. destruct (C90_logits t h model C) as (F & X & _ & K).
  destruct (K x B P HB HP Hx) as (y & Ey & _ & V), (K x' B P HB HP Hx') as (y' & Ey' & _ & V').
  exists y, y'. repeat (split; [assumption|]). intros b o Hb Ho. destruct (V b o Hb Ho) as (-> & _), (V' b o Hb Ho) as (-> & _).
  rewrite <- (rsum_perm P (fun p => F (pixel x b p) o) (pi b)) by auto. apply rsum_ext. intros p Hp. apply X; auto. intros d Hd. now apply H.
Qed.
Print Assumptions C90_pixel_order.

(** The other images of the batch do not matter. *)
Theorem C90_samples_independent : forall t h model x x' B B' P b b' y y', block_classifier t h model -> (1 <= P)%nat ->
  shape x = [B; P; 3]%nat -> shape x' = [B'; P; 3]%nat -> (b < B)%nat -> (b' < B')%nat ->
  (forall p d, (p < P)%nat -> (d < 3)%nat -> at_ x' [b'; p; d] = at_ x [b; p; d]) ->
  block_forward h model x = Ok y -> block_forward h model x' = Ok y' -> forall o, (o < 10)%nat -> at_ y' [b'; o] = at_ y [b; o].
Proof.
  intros t h model x x' B B' P b b' y y' C HP Hx Hx' Hb Hb' H Ey Ey' o Ho. destruct (C90_logits t h model C) as (F & X & _ & K).
  destruct (K x B P ltac:(lia) HP Hx) as (z & Ez & _ & V), (K x' B' P ltac:(lia) HP Hx') as (z' & Ez' & _ & V').
  rewrite Ey in Ez. rewrite Ey' in Ez'. injection Ez as <-. injection Ez' as <-. destruct (V b o Hb Ho) as (-> & _), (V' b' o Hb' Ho) as (-> & _).
  apply rsum_ext. intros p Hp. apply X; auto. intros d Hd. now apply H.
Qed.
Print Assumptions C90_samples_independent.

(** Pixels do not interact: replacing one pixel changes the logits by an amount that the other pixels have no influence on, so
    the classifier cannot tell, say, whether two pixels have the same colour. *)
Theorem C90_no_interaction : forall t h model B P q b x x1 z z1 y y1 w w1, block_classifier t h model -> (1 <= P)%nat -> (q < P)%nat -> (b < B)%nat ->
  shape x = [B; P; 3]%nat -> shape x1 = [B; P; 3]%nat -> shape z = [B; P; 3]%nat -> shape z1 = [B; P; 3]%nat ->
  (* x1 is x, and z1 is z, with pixel q replaced; the old pixels are the same, and so are the new ones *)
  (forall p d, (p < P)%nat -> p <> q -> (d < 3)%nat -> at_ x1 [b; p; d] = at_ x [b; p; d] /\ at_ z1 [b; p; d] = at_ z [b; p; d]) ->
  (forall d, (d < 3)%nat -> at_ x [b; q; d] = at_ z [b; q; d] /\ at_ x1 [b; q; d] = at_ z1 [b; q; d]) ->
  block_forward h model x = Ok y -> block_forward h model x1 = Ok y1 -> block_forward h model z = Ok w -> block_forward h model z1 = Ok w1 ->
  forall o, (o < 10)%nat -> at_ y1 [b; o] - at_ y [b; o] = at_ w1 [b; o] - at_ w [b; o].
Proof.
  intros t h model B P q b x x1 z z1 y y1 w w1 C HP Hq Hb Hx Hx1 Hz Hz1 Ho Hs Ey Ey1 Ew Ew1 o Hout. destruct (C90_logits t h model C) as (F & X & _ & K).
  assert (V : forall a r, shape a = [B; P; 3]%nat -> block_forward h model a = Ok r -> at_ r [b; o] = rsum P (fun p => F (pixel a b p) o)).
  { intros a r Ha Er. destruct (K a B P ltac:(lia) HP Ha) as (r' & Er' & _ & V). rewrite Er in Er'. injection Er' as <-. now apply V. }
  rewrite (V x y), (V x1 y1), (V z w), (V z1 w1) by auto. rewrite <- !rsum_minus. apply rsum_ext. intros p Hp. destruct (Nat.eq_dec p q) as [->|Hne].
  - rewrite (X (pixel x1 b q) (pixel z1 b q)), (X (pixel x b q) (pixel z b q)); auto; intros d Hd; now apply Hs.
  - rewrite (X (pixel x1 b p) (pixel x b p)), (X (pixel z1 b p) (pixel z b p)); [ring|..]; auto; intros d Hd; now apply Ho.
Qed.
Print Assumptions C90_no_interaction.

(** With "continuous_nd" the ten logits of an image are always equal, whatever the weights are: the loss is ln 10 for all labels and
    the predicted class is always 0. *)
Theorem C90_continuous_nd_blind : forall h model x B P target, block_classifier "continuous_nd" h model -> (1 <= B)%nat -> (1 <= P)%nat ->
  shape x = [B; P; 3]%nat -> shape target = [B] -> (forall b, (b < B)%nat -> (0 <= at_ target [b] < 10)%Z) ->
  exists y p, block_forward h model x = Ok y /\ (forall b o o', (b < B)%nat -> (o < 10)%nat -> (o' < 10)%nat -> at_ y [b; o] = at_ y [b; o']) /\
    cross_entropy y target = Ok (Some (ln 10)) /\ argmax1 y = Ok p /\ forall b, (b < B)%nat -> at_ p [b] = 0%Z.
Proof.
  intros h model x B P target C HB HP Hx Ht Hl. destruct (block_classifier_net _ h model C) as (F & PF & Bd & Q).
  destruct (block_sum h model F PF x B P HB HP Hx) as (y & Ey & Sy & V).
  assert (Eq : forall b o, (b < B)%nat -> (o < 10)%nat -> at_ y [b; o] = at_ y [b; 0%nat]).
  { intros b o Hb Ho. rewrite !V by (auto; lia). apply rsum_ext. intros p Hp. apply Q; auto. lia. }
  exists y. eexists. split; [exact Ey|]. split; [intros b o o' Hb Ho Ho'; now rewrite (Eq b o), (Eq b o')|].
  split; [|split; [unfold argmax1; rewrite Sy; reflexivity|]].
  - unfold cross_entropy. rewrite Sy, Ht, Nat.eqb_refl. cbn [negb].
    replace (forallb _ (seq 0 B)) with true.
    2:{ symmetry. apply forallb_forall. intros b Hb. apply in_seq in Hb. specialize (Hl b ltac:(lia)). unfold label_ok. apply orb_true_intro. right. apply andb_true_intro.
        split; [apply Z.leb_le; lia|apply Z.ltb_lt; cbn; lia]. }
    replace (filter _ (seq 0 B)) with (seq 0 B).
    2:{ symmetry. rewrite (filter_ext_in _ (fun _ => true)); [induction (seq 0 B); cbn; congruence|]. intros b Hb. apply in_seq in Hb. specialize (Hl b ltac:(lia)).
        destruct (Z.eqb_spec (at_ target [b]) (-100)); [lia|reflexivity]. }
    replace (match seq 0 B with [] => Ok None | _ :: _ => _ end) with
      (Ok (Some (fold_right (fun b acc => ln (rsum 10 (fun c => exp (at_ y [b; c]))) - at_ y [b; Z.to_nat (at_ target [b])] + acc) 0 (seq 0 B) / INR (length (seq 0 B))))).
    2:{ destruct B; [lia|]. reflexivity. }
    f_equal. f_equal.
    assert (S : forall l, (forall b, In b l -> (b < B)%nat) ->
      fold_right (fun b acc => ln (rsum 10 (fun c => exp (at_ y [b; c]))) - at_ y [b; Z.to_nat (at_ target [b])] + acc) 0 l = INR (length l) * ln 10).
    { induction l as [|b l IH]; intros Hin; [cbn; lra|]. cbn [fold_right length]. rewrite IH by (intros; apply Hin; now right). rewrite S_INR.
      assert (Hb : (b < B)%nat) by (apply Hin; now left). specialize (Hl b Hb).
      rewrite (Eq b (Z.to_nat _)) by lia. rewrite (rsum_ext 10 _ (fun _ => exp (at_ y [b; 0%nat]))) by (intros c Hc; now rewrite Eq).
      rewrite rsum_const, ln_mult, ln_exp by (try apply exp_pos; cbn; lra). replace (INR 10) with 10 by (cbn; lra). lra. }
    rewrite S by (intros b Hb; apply in_seq in Hb; lia). field. apply not_0_INR. rewrite seq_length. lia.
  - intros b Hb. cbn [at_]. replace (argmax_to 10 _) with 0%nat; [reflexivity|]. symmetry.
    assert (A : forall n, (n <= 10)%nat -> argmax_to n (fun c => at_ y [b; c]) = 0%nat); [|now apply A].
    induction n as [|n IH]; intros Hn; [reflexivity|]. cbn [argmax_to]. rewrite IH by lia. rewrite (Eq b n) by lia. destruct Rlt_dec; [lra|reflexivity].
Qed.
Print Assumptions C90_continuous_nd_blind.

(** ** The inputs: images with their coordinates *)

(** A pixel given by its three numbers. *)
Definition point (g r c : R) (d : nat) : R := match d with O => g | 1%nat => r | _ => c end.

Lemma element_spec im : shape im = [1; 28; 28]%nat -> exists e, block_element im = Ok e /\ shape e = [784; 3]%nat /\
  forall i j d, (i < 28)%nat -> (j < 28)%nat -> (d < 3)%nat ->
    at_ e [28 * i + j; d]%nat = point (at_ im [0; i; j]%nat) ((INR i - 27 / 2) / (27 / 2)) ((INR j - 27 / 2) / (27 / 2)) d.
Proof.
  intros Hi. unfold block_element. rewrite Hi. cbn [Nat.eqb andb].
  match goal with |- exists e, view_infer [] [3%nat] ?t = _ /\ _ => destruct (view_infer_ok t [] [3%nat] 784) as (e & Ee & Se & V) end; [cbn; lia|reflexivity|].
  exists e. split; [exact Ee|]. split; [exact Se|]. intros i j d Hi' Hj Hd.
  rewrite (V [28 * i + j; d]%nat [i; j; d]); [|cbn; repeat split; lia|cbn; lia]. destruct d as [|[|[|]]]; [reflexivity|reflexivity|reflexivity|lia].
Qed.

Theorem C90_collate : forall images, images <> [] -> (forall im, In im images -> shape im = [1; 28; 28]%nat) ->
  exists x, block_collate images = Ok x /\ shape x = [length images; 784; 3]%nat /\
    forall b im i j d, nth_error images b = Some im -> (i < 28)%nat -> (j < 28)%nat -> (d < 3)%nat ->
      at_ x [b; 28 * i + j; d]%nat = point (at_ im [0; i; j]%nat) ((INR i - 27 / 2) / (27 / 2)) ((INR j - 27 / 2) / (27 / 2)) d.
Proof.
  intros images Hne Hs. assert (A : forall l, (forall im, In im l -> shape im = [1; 28; 28]%nat) -> exists es, all_elements l = Ok es /\ length es = length l /\
    (forall e, In e es -> shape e = [784; 3]%nat) /\ forall b im t0, nth_error l b = Some im -> forall i j d, (i < 28)%nat -> (j < 28)%nat -> (d < 3)%nat ->
      at_ (nth b es t0) [28 * i + j; d]%nat = point (at_ im [0; i; j]%nat) ((INR i - 27 / 2) / (27 / 2)) ((INR j - 27 / 2) / (27 / 2)) d).
  { induction l as [|im l IH]; intros H; [exists []; repeat split; [intros e []|intros [|] im t0; discriminate]|].
    destruct (element_spec im (H im (or_introl eq_refl))) as (e & Ee & Se & Ve). destruct IH as (es & Ees & Le & Ses & Ves); [intros; apply H; now right|].
    exists (e :: es). cbn [all_elements]. rewrite Ee. cbn [rbind]. rewrite Ees. split; [reflexivity|]. split; [cbn; lia|]. split; [intros e' [<-|He]; auto|].
    intros [|b] im' t0 Hb; cbn in Hb; [injection Hb as <-; exact Ve|]. cbn [nth]. now apply Ves. }
  destruct (A images Hs) as (es & Ees & Le & Ses & Ves). unfold block_collate. rewrite Ees. cbn [rbind].
  destruct es as [|e es]; [destruct images; [congruence|cbn in Le; lia]|]. unfold stack_list.
  replace (forallb _ (e :: es)) with true.
  2:{ symmetry. apply forallb_forall. intros e' He'. rewrite (Ses e'), (Ses e) by (auto; now left). now destruct list_eq_dec. }
  eexists. split; [reflexivity|]. split; [cbn [stack shape]; f_equal; [exact Le|apply Ses; now left]|].
  intros b im i j d Hb Hi Hj Hd. cbn [stack at_]. now apply (Ves b im e Hb).
Qed.
Print Assumptions C90_collate.

(** The coordinates lie in [-1, 1] and tell the pixels apart. *)
Theorem C90_coordinates : forall i j, (i < 28)%nat -> (j < 28)%nat ->
  -1 <= (INR i - 27 / 2) / (27 / 2) <= 1 /\ ((INR i - 27 / 2) / (27 / 2) = (INR j - 27 / 2) / (27 / 2) -> i = j).
Proof.
  intros i j Hi Hj. assert (I1 : INR i <= 27) by (replace 27 with (INR 27) by (rewrite INR_IZR_INZ; reflexivity); apply le_INR; lia).
  pose proof (pos_INR i). split; [lra|]. intros E. apply INR_eq. lra.
Qed.

(** An image is classified by the sum over its rows and columns. *)
Theorem C90_images : forall t h model images, block_classifier t h model -> images <> [] -> (forall im, In im images -> shape im = [1; 28; 28]%nat) ->
  exists F x y, block_collate images = Ok x /\ block_forward h model x = Ok y /\ shape y = [length images; 10]%nat /\
    forall b im o, nth_error images b = Some im -> (o < 10)%nat ->
      at_ y [b; o] = rsum 28 (fun i => rsum 28 (fun j => F (at_ im [0; i; j]%nat) ((INR i - 27 / 2) / (27 / 2)) ((INR j - 27 / 2) / (27 / 2)) o)) /\
      -784 < at_ y [b; o] < 784.
Proof.
  intros t h model images C Hne Hs. destruct (C90_logits t h model C) as (F & X & _ & K). destruct (C90_collate images Hne Hs) as (x & Ex & Sx & Vx).
  destruct (K x (length images) 784%nat) as (y & Ey & Sy & Vy); auto; [destruct images; [congruence|cbn; lia]|lia|].
  exists (fun g r c => F (point g r c)), x, y. repeat (split; [assumption|]). intros b im o Hb Ho.
  assert (Lb : (b < length images)%nat) by (apply nth_error_Some; congruence). destruct (Vy b o Lb Ho) as (-> & Bd).
  split. 2:{ apply Rabs_def2 in Bd. replace (INR 784) with 784 in Bd by (rewrite INR_IZR_INZ; reflexivity). lra. }
  change 784%nat with (28 * 28)%nat. rewrite rsum_mul. apply rsum_ext. intros i Hi. apply rsum_ext. intros j Hj. apply X; auto. intros d Hd. unfold pixel.
  rewrite <- (Vx b im i j d) by auto. replace (i * 28 + j)%nat with (28 * i + j)%nat by lia. reflexivity.
Qed.
Print Assumptions C90_images.

(** What the example does not accept: images of another size, other layer types (also "continuous_3d", which the configuration
    mentions), and other normalisations. *)
Theorem C90_rejected : forall g n s norm h0, (1 <= n)%nat -> (1 <= s)%nat ->
  (forall im H W, shape im = [1; H; W]%nat -> (H, W) <> (28, 28)%nat -> block_collate [im] = Err RuntimeError) /\
  new_block_net g "continuous_3d" n s norm h0 = Err ValueError /\
  (forall t, In t ("continuous_nd" :: nd_names)%string -> ~ In norm ["max_abs"; "max_center"]%string -> new_block_net g t n s norm h0 = Err KeyError) /\
  (forall t, In t ["polynomial"; "fourier"; "continuous"; "discontinuous"]%string -> exists e, new_block_net g t n s norm h0 = Err e).
Proof.
  intros g n s norm h0 Hn Hs. split; [|split; [|split]].
  - intros im H W Hi Hne. unfold block_collate. cbn [all_elements]. assert (block_element im = Err RuntimeError) as ->; [|reflexivity].
    unfold block_element. rewrite Hi. destruct (Nat.eqb_spec H 28), (Nat.eqb_spec W 28); cbn [andb]; try reflexivity. congruence.
  - reflexivity.
  - intros t Ht Hm. destruct (block_layer g t n s h0 Hn Hs Ht) as (o & E & _). unfold new_block_net. fold (block_args n s). unfold mthen at 1. rewrite E.
    unfold block_normalization. destruct (String.eqb_spec norm "max_abs"); [subst; exfalso; apply Hm; now left|].
    destruct (String.eqb_spec norm "max_center"); [subst; exfalso; apply Hm; right; now left|]. reflexivity.
  - intros t [<-|[<-|[<-|[<-|[]]]]]; eexists; reflexivity.
Qed.
Print Assumptions C90_rejected.

(** The configuration of the example ("polynomial_3d", n = 7, "max_abs") and two images, a black and a white one. *)
Example C90_case : exists model h x y, new_block_net (fun _ _ => 3 / 4) "polynomial_3d" 7 5 "max_abs" [] = Ok (model, h) /\ block_classifier "polynomial_3d" h model /\
  block_collate [mkT [1; 28; 28]%nat (fun _ => -1); mkT [1; 28; 28]%nat (fun _ => 1)] = Ok x /\
  block_forward h model x = Ok y /\ shape y = [2; 10]%nat.
Proof.
  destruct (C90_construction (fun _ _ => 3 / 4) "polynomial_3d" 7 5 "max_abs" []) as (model & h & E & C & _); try lia; [cbn; tauto|cbn; tauto|intros i Hi; cbn in Hi; lia|].
  destruct (C90_images _ h model [mkT [1; 28; 28]%nat (fun _ => -1); mkT [1; 28; 28]%nat (fun _ => 1)] C) as (F & x & y & Ex & Ey & Sy & _); [discriminate|intros im [<-|[<-|[]]]; reflexivity|].
  exists model, h, x, y. repeat (split; [assumption|]). exact Sy.
Qed.
Example C90_blind_case : exists model h x y, new_block_net (fun _ _ => 3 / 4) "continuous_nd" 3 5 "max_center" [] = Ok (model, h) /\ block_classifier "continuous_nd" h model /\
  block_collate [mkT [1; 28; 28]%nat (fun ix => INR (nth 1 ix 0%nat) / 28)] = Ok x /\
  block_forward h model x = Ok y /\ cross_entropy y (mkT [1%nat] (fun _ => 7%Z)) = Ok (Some (ln 10)).
Proof.
  destruct (C90_construction (fun _ _ => 3 / 4) "continuous_nd" 3 5 "max_center" []) as (model & h & E & C & _); try lia; [cbn; tauto|cbn; tauto|intros i Hi; cbn in Hi; lia|].
  destruct (C90_collate [mkT [1; 28; 28]%nat (fun ix => INR (nth 1 ix 0%nat) / 28)]) as (x & Ex & Sx & _); [discriminate|intros im [<-|[]]; reflexivity|].
  destruct (C90_continuous_nd_blind h model x 1 784 (mkT [1%nat] (fun _ => 7%Z)) C) as (y & p & Ey & _ & Ec & _); auto; try lia; [intros; cbn; lia|].
  exists model, h, x, y. repeat (split; [assumption|]). exact Ec.
Qed.
