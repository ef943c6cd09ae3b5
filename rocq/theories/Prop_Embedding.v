(** * C50, C52: positional embeddings; entry points that never work. *)
From Coq Require Import Reals ZArith List Bool Arith Lia Lra.
From Verif Require Import Spec Tensor Convolution Layers ProductLayer PolynomialLayers Attention Embedding ObserveAttention SumFacts TensorFacts AttentionFacts.
Import ListNotations.
Local Open Scope R_scope.

(** Frequency [k] of an embedding with [h] frequencies: from 1 down to 1/10000 in geometric progression. *)
Definition frequency (h k : nat) : R := Rpower 10000 (- (INR k / INR (h - 1))).

Lemma bc_list_self s : forall ix, valid s ix -> bc_list s ix = ix.
Proof. induction s as [|a s IH]; intros [|i ix] V; try contradiction; [reflexivity|]. destruct V as [H V]. cbn. now rewrite bc_id, IH. Qed.

Lemma valid_snoc s n ix i : valid s ix -> (i < n)%nat -> valid (s ++ [n]) (ix ++ [i]).
Proof. revert ix. induction s as [|a s IH]; intros [|j ix] V H; try contradiction; cbn; [auto|]. destruct V. split; auto. Qed.
Lemma bc_list_app s t : forall ix jx, length ix = length s -> bc_list (s ++ t) (ix ++ jx) = bc_list s ix ++ bc_list t jx.
Proof. induction s as [|a s IH]; intros [|i ix] jx L; try discriminate; [reflexivity|]. cbn. now rewrite IH by (injection L; auto). Qed.

(** Shape and entries of the embedding, for inputs of any shape. *)
Lemma sinusoidal_ok h x : (2 <= h)%nat -> shape x <> [] ->
  exists y, sinusoidal_forward (2 * Z.of_nat h) x = Ok y /\ shape y = shape x ++ [2 * h]%nat /\
    forall ix k, valid (shape x) ix -> (k < h)%nat ->
      at_ y (ix ++ [k]) = sin (at_ x ix * frequency h k) /\ at_ y (ix ++ [h + k]%nat) = cos (at_ x ix * frequency h k).
Proof.
  intros Hh Hs. unfold sinusoidal_forward. rewrite (Z.mul_comm 2), Z.div_mul by lia.
  destruct (Z.eqb_spec (Z.of_nat h) 1); [lia|]. destruct (Z.ltb_spec (Z.of_nat h) 0); [lia|]. cbv zeta. rewrite Nat2Z.id.
  set (e := ln 10000 / IZR (Z.of_nat h - 1)).
  assert (Fq : forall k, exp (INR k * - e) = frequency h k).
  { intros k. unfold frequency, Rpower, e. f_equal. rewrite INR_IZR_INZ with (n := (h - 1)%nat). rewrite Nat2Z.inj_sub by lia. cbn [Z.of_nat Pos.of_succ_nat].
    field. apply not_0_IZR. lia. }
  unfold broadcast2, unsqueeze. cbn [shape firstn skipn app]. rewrite firstn_all, skipn_all.
  assert (Bs : bshape (shape x ++ [1%nat]) [1%nat; h] = Some (shape x ++ [h])).
  { unfold bshape. rewrite rev_app_distr. cbn [rev app].
    destruct (rev (shape x)) as [|a r] eqn:Er. { apply (f_equal (@rev nat)) in Er. rewrite rev_involutive in Er. contradiction. }
    cbn [bshape_rev]. rewrite bsize_1, bsize_1r. replace (bshape_rev r []) with (Some r) by (destruct r; reflexivity). cbn [rev]. rewrite <- (rev_involutive (shape x)), Er. cbn [rev]. reflexivity. }
  rewrite Bs. cbn [rbind shape at_]. rewrite removelast_last, last_last.
  eexists. split; [reflexivity|]. cbn [shape at_]. split; [do 2 f_equal; lia|].
  intros ix k V Hk. rewrite !last_last, !removelast_last. destruct (Nat.ltb_spec k h); [|lia]. destruct (Nat.ltb_spec (h + k) h); [lia|].
  replace (h + k - h)%nat with k by lia.
  assert (L : length ix = length (shape x)) by (revert V; generalize (shape x); intros s; revert ix; clear; induction s; intros [|j ix] V; try contradiction; auto; destruct V; cbn; auto).
  assert (E1 : bindex (shape x ++ [1%nat]) (ix ++ [k]) = ix ++ [0%nat]).
  { unfold bindex. rewrite !app_length, L. cbn [length]. rewrite Nat.sub_diag. cbn [skipn]. rewrite bc_list_app by auto. rewrite bc_list_self by auto. reflexivity. }
  assert (E2 : bindex [1%nat; h] (ix ++ [k]) = [0%nat; k]).
  { unfold bindex. rewrite app_length, L. cbn [length]. 
    destruct (rev ix) as [|j r] eqn:Er.
    { apply (f_equal (@length nat)) in Er. rewrite rev_length, L in Er. destruct (shape x); [contradiction|discriminate]. }
    apply (f_equal (@rev nat)) in Er. rewrite rev_involutive in Er. cbn [rev] in Er. rewrite Er in *. rewrite app_length in L. cbn [length] in L.
    replace (length (shape x) + 1 - 2)%nat with (length (rev r)) by lia. rewrite <- app_assoc, skipn_app, skipn_all, Nat.sub_diag. cbn [skipn app bc_list].
    f_equal. f_equal. now apply bc_id. }
  rewrite E1, E2. rewrite firstn_app, <- L, Nat.sub_diag, firstn_all, app_nil_r.
  assert (Z : match ix ++ [0%nat] with [] => [] | _ :: l => skipn (length ix) l end = []).
  { change (skipn (S (length ix)) (ix ++ [0%nat]) = []). apply skipn_all2. rewrite app_length. cbn. lia. }
  rewrite Z. cbn [firstn nth]. rewrite !app_nil_r, Fq. split; reflexivity.
Qed.

(** The embedding of every entry consists of [dim/2] points on the unit circle: sine and cosine of the entry times
    [dim/2] frequencies, the first 1, the last 1/10000. *)
Theorem C52_sinusoidal : forall h x, (2 <= h)%nat -> shape x <> [] ->
  exists m y, new_sinusoidal (2 * Z.of_nat h) = Ok m /\ sinusoidal_forward m x = Ok y /\ shape y = shape x ++ [2 * h]%nat /\
    forall ix, valid (shape x) ix ->
      (forall k, (k < h)%nat -> at_ y (ix ++ [k]) = sin (at_ x ix * frequency h k) /\ at_ y (ix ++ [h + k]%nat) = cos (at_ x ix * frequency h k)) /\
      (forall k, (k < h)%nat -> at_ y (ix ++ [k]) ^ 2 + at_ y (ix ++ [h + k]%nat) ^ 2 = 1) /\
      (forall c, (c < 2 * h)%nat -> -1 <= at_ y (ix ++ [c]) <= 1) /\
      (at_ x ix = 0 -> forall k, (k < h)%nat -> at_ y (ix ++ [k]) = 0 /\ at_ y (ix ++ [h + k]%nat) = 1) /\
      at_ y (ix ++ [0%nat]) = sin (at_ x ix) /\ at_ y (ix ++ [h - 1]%nat) = sin (at_ x ix / 10000).
Proof.
  intros h x Hh Hs. destruct (sinusoidal_ok h x Hh Hs) as (y & E & S & V). exists (2 * Z.of_nat h)%Z, y.
  split. { unfold new_sinusoidal. now rewrite Z.mul_comm, Z.mod_mul by lia. }
  split; [exact E|]. split; [exact S|]. intros ix Hv. pose proof (fun k => V ix k Hv) as W. split; [auto|]. split; [|split; [|split; [|split]]].
  - intros k Hk. destruct (W k Hk) as (-> & ->). rewrite <- !Rsqr_pow2. apply sin2_cos2.
  - intros c Hc. destruct (Nat.lt_ge_cases c h) as [Hl|Hg].
    + rewrite (proj1 (W c Hl)). apply SIN_bound.
    + replace c with (h + (c - h))%nat by lia. rewrite (proj2 (W (c - h)%nat ltac:(lia))). apply COS_bound.
  - intros Z k Hk. destruct (W k Hk) as (-> & ->). rewrite Z, Rmult_0_l. split; [apply sin_0|apply cos_0].
  - rewrite (proj1 (W 0%nat ltac:(lia))). unfold frequency. cbn [INR]. unfold Rdiv. rewrite Rmult_0_l, Ropp_0, Rpower_O by lra. f_equal. ring.
  - rewrite (proj1 (W (h - 1)%nat ltac:(lia))). unfold frequency, Rdiv. rewrite Rinv_r by (apply not_0_INR; lia). rewrite Rpower_Ropp, Rpower_1 by lra. reflexivity.
Qed.
Print Assumptions C52_sinusoidal.

Lemma rsum_split n m f : rsum (n + m) f = rsum n f + rsum m (fun k => f (n + k)%nat).
Proof. induction m; [rewrite Nat.add_0_r; cbn [rsum]; ring|]. rewrite Nat.add_succ_r. cbn [rsum]. rewrite IHm. ring. Qed.

(** The scalar product of two embedded positions depends on their difference only; every embedding has squared norm [dim/2]. *)
Theorem C52_products_depend_on_difference : forall h x y, (2 <= h)%nat -> shape x = [1%nat] ->
  sinusoidal_forward (2 * Z.of_nat h) x = Ok y ->
  forall x' y', shape x' = [1%nat] -> sinusoidal_forward (2 * Z.of_nat h) x' = Ok y' ->
  rsum (2 * h) (fun c => at_ y [0%nat; c] * at_ y' [0%nat; c]) = rsum h (fun k => cos ((at_ x [0%nat] - at_ x' [0%nat]) * frequency h k)) /\
  rsum (2 * h) (fun c => at_ y [0%nat; c] ^ 2) = INR h.
Proof.
  intros h x y Hh Sx Ey x' y' Sx' Ey'.
  destruct (sinusoidal_ok h x Hh ltac:(now rewrite Sx)) as (z & E & _ & V). rewrite Ey in E. injection E as <-.
  destruct (sinusoidal_ok h x' Hh ltac:(now rewrite Sx')) as (z & E & _ & V'). rewrite Ey' in E. injection E as <-.
  assert (Hv : valid (shape x) [0%nat]) by (rewrite Sx; cbn; auto). assert (Hv' : valid (shape x') [0%nat]) by (rewrite Sx'; cbn; auto).
  replace (2 * h)%nat with (h + h)%nat by lia. split.
  - rewrite rsum_split, <- rsum_plus. apply rsum_ext. intros k Hk. destruct (V [0%nat] k Hv Hk) as (A & B). destruct (V' [0%nat] k Hv' Hk) as (A' & B'). cbn [app] in *.
    rewrite A, B, A', B', Rmult_minus_distr_r, cos_minus. ring.
  - rewrite rsum_split, <- rsum_plus. rewrite (rsum_ext _ _ (fun _ => 1)).
    + clear. induction h; [reflexivity|]. rewrite S_INR. cbn [rsum]. now rewrite IHh.
    + intros k Hk. destruct (V [0%nat] k Hv Hk) as (A & B). cbn [app] in *. rewrite A, B, <- !Rsqr_pow2. apply sin2_cos2.
Qed.
Print Assumptions C52_products_depend_on_difference.

Example C52_case : exists y, sinusoidal_forward 6 (mkT [2; 5]%nat (fun ix => INR (nth 1 ix 0%nat))) = Ok y /\ shape y = [2; 5; 6]%nat /\
  at_ y [1; 3; 0]%nat = sin 3 /\ at_ y [1; 0; 4]%nat = 1.
Proof.
  set (x := mkT _ _). destruct (C52_sinusoidal 3 x) as (m & y & Em & E & S & V); [lia|discriminate|].
  cbn in Em. injection Em as <-. exists y. split; [exact E|]. split; [exact S|].
  destruct (V [1; 3]%nat) as (_ & _ & _ & _ & H0 & _); [cbn; lia|]. destruct (V [1; 0]%nat) as (_ & _ & _ & H1 & _); [cbn; lia|]. cbn [app] in *. split.
  - rewrite H0. unfold x. cbn [at_ nth INR]. f_equal. ring.
  - apply (H1 eq_refl 1%nat). lia.
Qed.

(** ** What never works *)

(** An odd dimension is rejected; dimension 2 is accepted, but every call divides by zero. *)
Theorem C50_sinusoidal_dimensions : forall dim,
  (Z.odd dim = true -> new_sinusoidal dim = Err ValueError) /\
  (Z.even dim = true -> new_sinusoidal dim = Ok dim) /\
  (forall x, sinusoidal_forward 2 x = Err ZeroDivisionError) /\
  ((dim < 0)%Z -> Z.even dim = true -> forall x, sinusoidal_forward dim x = Err RuntimeError).
Proof.
  intros dim. unfold new_sinusoidal. split; [|split; [|split]].
  - intros H. rewrite Zmod_odd, H. reflexivity.
  - intros H. rewrite Zmod_odd, <- Z.negb_even, H. reflexivity.
  - reflexivity.
  - intros Hd He x. unfold sinusoidal_forward. apply Z.even_spec in He. destruct He as (m & ->). rewrite (Z.mul_comm 2), Z.div_mul by lia.
    destruct (Z.eqb_spec m 1); [lia|]. destruct (Z.ltb_spec m 0); [reflexivity|lia].
Qed.
Print Assumptions C50_sinusoidal_dimensions.

(** The Fourier embedding is None for all arguments, the other two are layers. *)
Theorem C50_fourier_embedding : forall n i o s len wm p draw,
  FourierSeriesEmbedding n i o len draw = None /\
  PiecewisePolynomialEmbedding n i o s len wm p draw <> None /\ PiecewiseDiscontinuousPolynomialEmbedding n i o s len wm p draw <> None.
Proof. repeat split; discriminate. Qed.
Print Assumptions C50_fourier_embedding.

(** The other two embeddings are the continuous and the discontinuous layer: neighbouring segments share a weight in the first only. *)
Theorem C50_piecewise_embeddings : forall n i o s len wm p draw, exists l l',
  PiecewisePolynomialEmbedding n i o s len wm p draw = Some l /\ PiecewiseDiscontinuousPolynomialEmbedding n i o s len wm p draw = Some l' /\
  l = new_piecewise PiecewisePolynomial n i o s len wm p draw /\ l' = new_piecewise PiecewiseDiscontinuousPolynomial n i o s len wm p draw /\
  shape (pw_w l) = [o; i; (n - 1) * s + 1]%nat /\ shape (pw_w l') = [o; i; n * s]%nat.
Proof. intros. do 2 eexists. do 4 (split; [reflexivity|]). split; reflexivity. Qed.
Print Assumptions C50_piecewise_embeddings.

(** A product layer built without bias fails on every input, with TypeError when the input has the right width. *)
Theorem C50_product_without_bias : forall i o alpha p dw db x,
  (exists e, Product_forward (new_product i o false alpha p dw db) x = Err e) /\
  (forall B, shape x = [B; i] -> Product_forward (new_product i o false alpha p dw db) x = Err TypeError).
Proof.
  intros i o alpha p dw db x. unfold Product_forward, new_product. cbn [pr_bias pr_weight pr_alpha pr_periodicity]. split.
  - destruct (einsum2 _ _ _ _ _) as [y|e]; cbn [rbind]; eauto.
  - intros B S. unfold einsum2. cbn [tmap shape]. rewrite S. cbn -[prodn]. rewrite ?bsize_refl. cbn -[prodn]. rewrite ?bsize_refl. reflexivity.
Qed.
Print Assumptions C50_product_without_bias.

(** [Customizing.forward] never returns; with weights and inputs of matching shapes it gets as far as the call that lacks
    an argument. *)
Record cz_weights (l : customizing) (N d H : nat) : Prop := mkCZW {
  czw_heads : cz_num_heads l = N; czw_d : cz_dim l = d;
  czw_conv : exists Co, shape (cz_conv_w l) = [Co; 1%nat; 3%nat] /\ shape (cz_loc_w l) = [d; Co];
  czw_query : shape (cz_query_w l) = [(N * d)%nat; H]; czw_value : shape (cz_value_w l) = [(N * d)%nat; H]; czw_bias : shape (cz_bias l) = [(N * d)%nat] }.
Theorem C50_customizing : forall l q v last,
  (exists e, customizing_forward l q v last = Err e) /\
  (forall N d H B Q T, cz_weights l N d H -> (1 <= B)%nat -> (1 <= N)%nat -> (1 <= d)%nat -> (1 <= Q)%nat -> (1 <= T)%nat ->
     shape q = [B; Q; H] -> shape v = [B; T; H] -> (forall a, last = Some a -> shape a = [(B * N)%nat; T]) ->
     customizing_forward l q v last = Err TypeError).
Proof.
  intros l q v last. split.
  { unfold customizing_forward.
    repeat match goal with |- exists e, rbind ?m _ = Err e => destruct m; cbn [rbind]; eauto end. }
  intros N d H B Q T [Hn Hdd (Co & Scw & Slw) Sqw Svw Sb] HB HN Hd HQ HT Sq Sv Sl.
  unfold customizing_forward, size. rewrite Hn, Hdd, Sv, Sq. cbn [nth_error rbind].
  set (la := match last with Some a => a | None => zeros [B * N; T]%nat end).
  assert (Sla : shape la = [(B * N)%nat; T]) by (unfold la; destruct last; [now apply Sl|reflexivity]).
  unfold get_loc_energy. rewrite Hn, Hdd.
  assert (Su : shape (unsqueeze 1 la) = [(B * N)%nat; 1%nat; T]) by (unfold unsqueeze; cbn [shape]; now rewrite Sla).
  destruct (conv3_ok (cz_conv_w l) (cz_conv_b l) _ _ _ _ _ Scw Su HT) as (c & -> & Sc & _). cbn [rbind].
  destruct (view_infer_ok c [B; N] [T] Co) as (c1 & -> & Sc1 & _); [cbn; nia|unfold numel; rewrite Sc; cbn; ring|]. cbn [rbind app] in *.
  rewrite (permute4_ok c1 [0; 1; 3; 2]%nat _ _ _ _ Sc1 eq_refl). cbn [rbind]. destruct (permute_0132 c1 _ _ _ _ Sc1) as (Sc2 & _). set (c2 := permute _ c1) in *.
  assert (L4 : exists e, linear0 (cz_loc_w l) c2 = Ok e /\ shape e = [B; N; T; d]).
  { unfold linear0, Linear_forward. rewrite Slw, Sc2. cbn [rev app hd]. rewrite Nat.eqb_refl. eexists. split; reflexivity. }
  destruct L4 as (e & -> & Se). cbn [rbind].
  destruct (reshape_ok e [B; N; T; d]) as (e1 & -> & Se1 & _); [unfold numel; now rewrite Se|]. cbn [rbind].
  rewrite (permute4_ok e1 [0; 2; 1; 3]%nat _ _ _ _ Se1 eq_refl). cbn [rbind]. destruct (permute_0213 e1 _ _ _ _ Se1) as (Se2 & _). set (e2 := permute _ e1) in *.
  destruct (reshape_ok e2 [B; T; N * d]%nat) as (e3 & -> & Se3 & _); [unfold numel; rewrite Se2; cbn; ring|]. cbn [rbind].
  destruct (linear3_ok (cz_query_w l) (cz_query_b l) q _ _ _ _ Sq Sqw) as (q1 & -> & Sq1 & _). cbn [rbind].
  destruct (reshape_ok q1 [B; Q; N * d]%nat) as (q2 & -> & Sq2 & _); [unfold numel; now rewrite Sq1|]. cbn [rbind].
  destruct (linear0_3 (cz_value_w l) v _ _ _ _ Sv Svw) as (v1 & -> & Sv1 & _). cbn [rbind].
  destruct (reshape_ok v1 [B; T; N * d]%nat) as (v2 & -> & Sv2 & _); [unfold numel; now rewrite Sv1|]. cbn [rbind].
  destruct (bsum3 Rplus v2 e3 _ _ _ _ Sv2 Se3 ltac:(auto)) as (v3 & -> & Sv3 & _). cbn [rbind].
  destruct (bsum_vec Rplus v3 (cz_bias l) _ _ _ Sv3 Sb) as (v4 & -> & Sv4 & _). cbn [rbind].
  destruct (reshape_ok q2 [B; Q; N; d]%nat) as (q3 & -> & Sq3 & _); [unfold numel; rewrite Sq2; cbn; ring|]. cbn [rbind].
  rewrite (permute4_ok q3 [2; 0; 1; 3]%nat _ _ _ _ Sq3 eq_refl). cbn [rbind]. destruct (permute_2013 q3 _ _ _ _ Sq3) as (Sq4 & _). set (q4 := permute _ q3) in *.
  destruct (reshape_ok v4 [B; T; N; d]%nat) as (v5 & -> & Sv5 & _); [unfold numel; rewrite Sv4; cbn; ring|]. cbn [rbind].
  rewrite (permute4_ok v5 [2; 0; 1; 3]%nat _ _ _ _ Sv5 eq_refl). cbn [rbind]. destruct (permute_2013 v5 _ _ _ _ Sv5) as (Sv6 & _). set (v6 := permute _ v5) in *.
  destruct (view_infer_ok q4 [] [Q; d] (N * B)%nat) as (q5 & -> & _ & _); [cbn; nia|unfold numel; rewrite Sq4; cbn; ring|]. cbn [rbind].
  destruct (view_infer_ok v6 [] [T; d] (N * B)%nat) as (v7 & -> & _ & _); [cbn; nia|unfold numel; rewrite Sv6; cbn; ring|]. reflexivity.
Qed.
Print Assumptions C50_customizing.

Example C50_case : customizing_forward
  (mkCustomizing 2 3 (zeros [10; 1; 3]%nat) (zeros [10]%nat) (zeros [6; 7]%nat) (zeros [6]%nat) (zeros [6; 7]%nat) (zeros [3; 10]%nat) (zeros [6]%nat))
  (zeros [4; 5; 7]%nat) (zeros [4; 8; 7]%nat) None = Err TypeError /\ new_sinusoidal 7 = Err ValueError /\
  Product_forward (new_product 3 2 false 1 None (fun _ _ => 1) (fun _ => 1)) (zeros [4; 3]%nat) = Err TypeError.
Proof.
  split; [|split; [reflexivity|]].
  - apply (proj2 (C50_customizing _ _ _ _) 2%nat 3%nat 7%nat 4%nat 5%nat 8%nat); try lia; try reflexivity; [|discriminate].
    constructor; try reflexivity. exists 10%nat. split; reflexivity.
  - now apply (proj2 (C50_product_without_bias 3 2 1 None _ _ _) 4%nat).
Qed.
