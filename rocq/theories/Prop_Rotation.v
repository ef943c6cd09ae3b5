(** * Fixed rotations and mesh positions (C29, C30). *)
From Coq Require Import Reals ZArith List Lia Lra Psatz.
From Verif Require Import Spec Tensor Normalization Rotation Observe SumFacts TensorFacts NormFacts.
Import ListNotations.
Local Open Scope R_scope.

(** ** C29 *)
Lemma list_add_length i v l : length (list_add i v l) = length l.
Proof. revert i. induction l; destruct i; cbn; auto. Qed.
Lemma list_set_length i v l : length (list_set i v l) = length l.
Proof. revert i. induction l; destruct i; cbn; auto. Qed.
Lemma nth_list_add l : forall i v k, (i < length l)%nat -> nth k (list_add i v l) 0 = nth k l 0 + (if Nat.eqb k i then v else 0).
Proof.
  induction l; intros i v k Hi; [cbn in Hi; lia|]. destruct i, k; cbn; try lra. apply IHl. cbn in Hi; lia.
Qed.
Lemma nth_list_set l : forall i v k, (i < length l)%nat -> nth k (list_set i v l) 0 = if Nat.eqb k i then v else nth k l 0.
Proof.
  induction l; intros i v k Hi; [cbn in Hi; lia|]. destruct i, k; cbn; try lra; auto. apply IHl. cbn in Hi; lia.
Qed.
Lemma nth_repeat0 n k : nth k (repeat 0 n) 0 = 0.
Proof. revert k. induction n; destruct k; cbn; auto. Qed.

Lemma flat_map_length_const {A B} (f : A -> list B) c l : (forall a, In a l -> length (f a) = c) -> length (flat_map f l) = (length l * c)%nat.
Proof. induction l; intros H; cbn; auto. rewrite app_length, H, IHl; auto; [intros; apply H; now right|now left]. Qed.

Lemma combos_row_length n rot nz row : In row (rotation_combos n rot nz) -> length row = n.
Proof.
  unfold rotation_combos. intros H. apply in_flat_map in H. destruct H as (i & Hi & [<-|H]).
  - now rewrite list_set_length, repeat_length.
  - apply in_flat_map in H. destruct H as (j & Hj & H). apply in_flat_map in H. destruct H as (r & Hr & H).
    cbn in H. destruct H as [<-|[<-|[]]]; now rewrite !list_add_length, repeat_length.
Qed.

Lemma combos_length n rot nz : length (rotation_combos n rot nz) = (n + n * (n - 1) * (Z.to_nat rot - 1))%nat.
Proof.
  unfold rotation_combos. set (m := (Z.to_nat rot - 1)%nat).
  assert (G : forall k s, (s + k = n)%nat ->
     length (flat_map (fun i => list_set i 1 (repeat 0 n) ::
       flat_map (fun j => flat_map (fun r => rotation_pair n rot nz i j r) (seq 1 m)) (seq (i + 1) (n - (i + 1)))) (seq s k))
     = (k + k * (k - 1) * m)%nat).
  { induction k; intros s Hs; [reflexivity|]. cbn [seq flat_map]. rewrite app_length, IHk by lia. cbn [length].
    rewrite (flat_map_length_const _ (m * 2)%nat).
    - rewrite seq_length. replace (n - (s + 1))%nat with k by lia. destruct k; cbn; nia.
    - intros j _. rewrite (flat_map_length_const _ 2%nat); [now rewrite seq_length|]. reflexivity. }
  now apply G.
Qed.

Theorem C29_width : forall n rot nz, (1 <= rot)%Z ->
  exists w width, fixed_rotation_layer n rot nz = Ok (w, width) /\
    shape w = [Z.to_nat width; n] /\ width = (Z.of_nat n + Z.of_nat n * (Z.of_nat n - 1) * (rot - 1))%Z.
Proof.
  intros n rot nz Hr. unfold fixed_rotation_layer. destruct (Z.ltb_spec rot 1); [lia|].
  eexists; eexists; split; [reflexivity|]. split; [|reflexivity].
  cbn [shape tensor_of_rows]. f_equal. rewrite combos_length.
  assert (E : (Z.of_nat (n + n * (n - 1) * (Z.to_nat rot - 1)) = Z.of_nat n + Z.of_nat n * (Z.of_nat n - 1) * (rot - 1))%Z).
  { destruct n; [cbn; lia|]. nia. }
  rewrite <- E. now rewrite Nat2Z.id.
Qed.
Print Assumptions C29_width.

Theorem C29_bad_rotations_rejected : forall n rot nz, (rot < 1)%Z -> fixed_rotation_layer n rot nz = Err ValueError.
Proof. intros n rot nz H. unfold fixed_rotation_layer. destruct (Z.ltb_spec rot 1); [reflexivity|lia]. Qed.
Print Assumptions C29_bad_rotations_rejected.

(** The rows: coordinate axes and, for each pair i<j of inputs and each r = 1..rotations-1, the axis
    at angle r/rotations of a right angle in the (i,j) plane and the axis orthogonal to it. *)
Definition axis_row (i k : nat) : R := if Nat.eqb k i then 1 else 0.
Definition plane_row (i j : nat) (a b : R) (k : nat) : R := if Nat.eqb k i then a else if Nat.eqb k j then b else 0.
Definition angle (rot : Z) (r : nat) : R := PI / 2 * (INR r / IZR rot).
Definition row_scale (nz : bool) (t : R) : R := if nz then / (Rabs (cos t) + Rabs (sin t)) else 1.

Lemma row_at n rot nz w width p k : (1 <= rot)%Z -> fixed_rotation_layer n rot nz = Ok (w, width) ->
  at_ w [p; k] = nth k (nth p (rotation_combos n rot nz) []) 0.
Proof.
  intros Hr H. unfold fixed_rotation_layer in H. destruct (Z.ltb_spec rot 1); [lia|]. injection H as <- <-. reflexivity.
Qed.

Lemma pair_rows n rot nz i j r : (i < j)%nat -> (j < n)%nat ->
  exists a b, rotation_pair n rot nz i j r = [a; b] /\
   let t := angle rot r in let s := row_scale nz t in
   (forall k, nth k a 0 = plane_row i j (s * cos t) (s * sin t) k) /\
   (forall k, nth k b 0 = plane_row i j (s * sin t) (s * - cos t) k).
Proof.
  intros Hij Hj. unfold rotation_pair. eexists; eexists; split; [reflexivity|]. unfold angle. cbv zeta. set (t := PI / 2 * _).
  split; intros k; rewrite !nth_list_add, nth_repeat0 by (rewrite ?list_add_length, repeat_length; lia); unfold plane_row, row_scale;
  destruct (Nat.eqb_spec k j); destruct (Nat.eqb_spec k i); try lia; destruct nz; unfold Rdiv; rewrite ?Rinv_1; ring.
Qed.

Theorem C29_rows : forall n rot nz w width, (1 <= rot)%Z -> fixed_rotation_layer n rot nz = Ok (w, width) ->
  (* every row is an axis or one of a pair *)
  (forall p, (p < nth 0 (shape w) 0)%nat ->
     (exists i, (i < n)%nat /\ forall k, at_ w [p; k] = axis_row i k) \/
     (exists i j r, (i < j < n)%nat /\ (1 <= r < Z.to_nat rot)%nat /\
        let t := angle rot r in let s := row_scale nz t in
        ((forall k, at_ w [p; k] = plane_row i j (s * cos t) (s * sin t) k) \/
         (forall k, at_ w [p; k] = plane_row i j (s * sin t) (s * - cos t) k)))) /\
  (* and all of them occur *)
  (forall i, (i < n)%nat -> exists p, (p < nth 0 (shape w) 0)%nat /\ forall k, at_ w [p; k] = axis_row i k) /\
  (forall i j r, (i < j < n)%nat -> (1 <= r < Z.to_nat rot)%nat ->
     let t := angle rot r in let s := row_scale nz t in
     exists p q, (p < nth 0 (shape w) 0)%nat /\ (q < nth 0 (shape w) 0)%nat /\
       (forall k, at_ w [p; k] = plane_row i j (s * cos t) (s * sin t) k) /\
       (forall k, at_ w [q; k] = plane_row i j (s * sin t) (s * - cos t) k)).
Proof.
  intros n rot nz w width Hr H. pose proof (fun p k => row_at n rot nz w width p k Hr H) as V.
  assert (Sh : nth 0 (shape w) 0%nat = length (rotation_combos n rot nz)).
  { unfold fixed_rotation_layer in H. destruct (Z.ltb_spec rot 1); [lia|]. injection H as <- <-. reflexivity. }
  rewrite Sh. clear Sh H.
  assert (AX : forall i k, (i < n)%nat -> nth k (list_set i 1 (repeat 0 n)) 0 = axis_row i k).
  { intros i k Hi. rewrite nth_list_set, nth_repeat0 by (rewrite repeat_length; lia). reflexivity. }
  split; [|split].
  - intros p Hp. pose proof (nth_In _ (@nil R) Hp) as Hin. set (row := nth p (rotation_combos n rot nz) []) in *.
    unfold rotation_combos in Hin. apply in_flat_map in Hin. destruct Hin as (i & Hi & [Hin|Hin]); apply in_seq in Hi.
    + left. exists i. split; [lia|]. intros k. rewrite V. fold row. rewrite <- Hin. apply AX. lia.
    + right. apply in_flat_map in Hin. destruct Hin as (j & Hj & Hin). apply in_flat_map in Hin. destruct Hin as (r & Hr' & Hin).
      apply in_seq in Hj, Hr'. exists i, j, r. split; [lia|]. split; [lia|]. cbv zeta.
      destruct (pair_rows n rot nz i j r) as (a & b & E & Va & Vb); try lia. rewrite E in Hin. destruct Hin as [Q|[Q|[]]]; [left|right];
        intros k; rewrite V; fold row; rewrite <- Q; auto.
  - intros i Hi. destruct (In_nth (rotation_combos n rot nz) (list_set i 1 (repeat 0 n)) []) as (p & Hp & E).
    { apply in_flat_map. exists i. split; [apply in_seq; lia|now left]. }
    exists p. split; auto. intros k. rewrite V, E. now apply AX.
  - intros i j r Hij Hr'. cbv zeta.
    destruct (pair_rows n rot nz i j r) as (a & b & E & Va & Vb); try lia.
    assert (HI : forall c, In c [a; b] -> In c (rotation_combos n rot nz)).
    { intros c Hc. apply in_flat_map. exists i. split; [apply in_seq; lia|]. right.
      apply in_flat_map. exists j. split; [apply in_seq; lia|]. apply in_flat_map. exists r. split; [apply in_seq; lia|]. now rewrite E. }
    destruct (In_nth _ a [] (HI a (or_introl eq_refl))) as (p & Hp & Ep).
    destruct (In_nth _ b [] (HI b (or_intror (or_introl eq_refl)))) as (q & Hq & Eq).
    exists p, q. do 2 (split; auto). split; intros k; rewrite V; [rewrite Ep|rewrite Eq]; auto.
Qed.
Print Assumptions C29_rows.

Lemma rsum_axis n i (f : nat -> R) : (i < n)%nat -> rsum n (fun k => axis_row i k * f k) = f i.
Proof.
  intros Hi. rewrite (rsum_ext n _ (fun k => if Nat.eqb k i then f k else 0)).
  - rewrite (rsum_single n i); auto; [now rewrite Nat.eqb_refl|]. intros j Hj Hji. now apply Nat.eqb_neq in Hji as ->.
  - intros k Hk. unfold axis_row. destruct (Nat.eqb k i); lra.
Qed.
Lemma rsum_plane n i j a b (f : nat -> R) : (i < j < n)%nat -> rsum n (fun k => plane_row i j a b k * f k) = a * f i + b * f j.
Proof.
  intros Hij. rewrite (rsum_ext n _ (fun k => axis_row i k * (a * f k) + axis_row j k * (b * f k))).
  - rewrite rsum_plus, !rsum_axis by lia. reflexivity.
  - intros k Hk. unfold plane_row, axis_row. destruct (Nat.eqb_spec k i), (Nat.eqb_spec k j); subst; try lia; ring.
Qed.

Lemma Rabs_def2b a c : Rabs a <= c -> - c <= a <= c.
Proof. unfold Rabs. destruct (Rcase_abs a); lra. Qed.

Lemma abs_cs_pos t : 0 < Rabs (cos t) + Rabs (sin t).
Proof.
  pose proof (Rabs_pos (cos t)). pose proof (Rabs_pos (sin t)).
  destruct (Req_dec (cos t) 0) as [E|E]; [|apply Rabs_pos_lt in E; lra].
  destruct (Req_dec (sin t) 0) as [E'|E']; [|apply Rabs_pos_lt in E'; lra].
  pose proof (sin2_cos2 t). unfold Rsqr in *. rewrite E, E' in *. lra.
Qed.

(** Absolute weights add up to 1 when normalising, squared weights otherwise. *)
Theorem C29_row_norms : forall n rot w width p, (1 <= rot)%Z ->
  (fixed_rotation_layer n rot true = Ok (w, width) -> (p < nth 0 (shape w) 0)%nat -> rsum n (fun k => Rabs (at_ w [p; k])) = 1) /\
  (fixed_rotation_layer n rot false = Ok (w, width) -> (p < nth 0 (shape w) 0)%nat -> rsum n (fun k => at_ w [p; k] * at_ w [p; k]) = 1).
Proof.
  intros n rot w width p Hr.
  split; intros H Hp; destruct (C29_rows n rot _ w width Hr H) as (A & _); destruct (A p Hp) as [(i & Hi & V)|(i & j & r & Hij & Hr' & V)]; clear A; cbv zeta in V.
  - rewrite (rsum_ext n _ (fun k => axis_row i k * 1)); [now rewrite rsum_axis|].
    intros k Hk. rewrite V. unfold axis_row. destruct (Nat.eqb k i); unfold Rabs; destruct (Rcase_abs _); lra.
  - set (t := angle rot r) in *. pose proof (abs_cs_pos t) as Hcs. unfold row_scale in V. assert (Hi := Rinv_0_lt_compat _ Hcs).
    assert (G : forall a b, (forall k, at_ w [p; k] = plane_row i j a b k) -> rsum n (fun k => Rabs (at_ w [p; k])) = Rabs a + Rabs b).
    { intros a b E. rewrite (rsum_ext n _ (fun k => plane_row i j (Rabs a) (Rabs b) k * 1)); [rewrite rsum_plane by auto; lra|].
      intros k Hk. rewrite E. unfold plane_row. destruct (Nat.eqb k i); [lra|]. destruct (Nat.eqb k j); [lra|]. rewrite Rabs_R0. lra. }
    destruct V as [V|V]; rewrite (G _ _ V), !Rabs_mult, ?Rabs_Ropp, (Rabs_right (/ _)) by lra; field; lra.
  - rewrite (rsum_ext n _ (fun k => axis_row i k * 1)); [now rewrite rsum_axis|].
    intros k Hk. rewrite V. unfold axis_row. destruct (Nat.eqb k i); lra.
  - set (t := angle rot r) in *. unfold row_scale in V. pose proof (sin2_cos2 t) as T. unfold Rsqr in T.
    assert (G : forall a b, (forall k, at_ w [p; k] = plane_row i j a b k) -> rsum n (fun k => at_ w [p; k] * at_ w [p; k]) = a * a + b * b).
    { intros a b E. rewrite (rsum_ext n _ (fun k => plane_row i j (a * a) (b * b) k * 1)); [rewrite rsum_plane by auto; lra|].
      intros k Hk. rewrite E. unfold plane_row. destruct (Nat.eqb k i); [lra|]. destruct (Nat.eqb k j); lra. }
    destruct V as [V|V]; rewrite (G _ _ V); lra.
Qed.
Print Assumptions C29_row_norms.

Theorem C29_stays_in_range : forall n rot w width x B, (1 <= rot)%Z -> fixed_rotation_layer n rot true = Ok (w, width) ->
  shape x = [B; n] -> (forall b i, (b < B)%nat -> (i < n)%nat -> -1 <= at_ x [b; i] <= 1) ->
  exists y, linear_forward w x = Ok y /\ shape y = [B; Z.to_nat width] /\
  forall b o, (b < B)%nat -> (o < Z.to_nat width)%nat -> -1 <= at_ y [b; o] <= 1.
Proof.
  intros n rot w width x B Hr H Hx Hb. unfold linear_forward. rewrite Hx.
  destruct (C29_width n rot true Hr) as (w' & width' & H' & Sw & _). rewrite H in H'. injection H' as <- <-. rewrite Sw, Nat.eqb_refl.
  eexists; split; [reflexivity|]. split; [reflexivity|]. intros b o Hb' Ho. cbn [at_ nth].
  assert (N : rsum n (fun k => Rabs (at_ w [o; k])) = 1) by (apply (C29_row_norms n rot w width o Hr); auto; rewrite Sw; auto).
  cut (Rabs (rsum n (fun k => at_ x [b; k] * at_ w [o; k])) <= 1); [intros Q; apply Rabs_def2b in Q; lra|]. rewrite <- N. eapply Rle_trans; [apply rsum_abs|]. apply rsum_le. intros k Hk. rewrite Rabs_mult.
  assert (Rabs (at_ x [b; k]) <= 1) by (apply Rabs_le; auto). pose proof (Rabs_pos (at_ w [o; k])). nra.
Qed.
Print Assumptions C29_stays_in_range.

Example C29_example : exists w, fixed_rotation_layer 2 2 true = Ok (w, 4%Z) /\ at_ w [1; 0]%nat = 1/2 /\ at_ w [2; 1]%nat = -1/2 /\ at_ w [3; 1]%nat = 1.
Proof.
  eexists. split; [reflexivity|]. cbn. change (Pos.to_nat 2) with 2%nat. cbn [seq flat_map app Nat.sub nth rotation_pair list_add repeat]. change (INR 1) with 1.
  replace (PI / 2 * (1 / 2)) with (PI / 4) by field. rewrite cos_PI4, sin_PI4.
  assert (0 < sqrt 2) by (apply sqrt_lt_R0; lra). assert (0 < 1 / sqrt 2) by (apply Rdiv_lt_0_compat; lra).
  rewrite Rabs_right by lra. repeat split; try lra; field; lra.
Qed.

(** ** C30 *)
Lemma full_max_ge t ix : valid (shape t) ix -> at_ t ix <= full_max t.
Proof.
  intros Hv. unfold full_max. rewrite <- (unravel_ravel _ _ Hv) at 1.
  apply (rmax_ge (numel t) (fun m => at_ t (unravel (shape t) m))). now apply ravel_lt.
Qed.
Lemma full_min_le t ix : valid (shape t) ix -> full_min t <= at_ t ix.
Proof.
  intros Hv. unfold full_min. rewrite <- (unravel_ravel _ _ Hv) at 1.
  apply (rmin_le (numel t) (fun m => at_ t (unravel (shape t) m))). now apply ravel_lt.
Qed.
Lemma full_max_att t : (1 <= numel t)%nat -> exists ix, valid (shape t) ix /\ at_ t ix = full_max t.
Proof.
  intros H. destruct (rmax_att (numel t) (fun m => at_ t (unravel (shape t) m))) as (k & Hk & E); [lia|].
  exists (unravel (shape t) k). split; auto. now apply unravel_valid.
Qed.
Lemma full_min_att t : (1 <= numel t)%nat -> exists ix, valid (shape t) ix /\ at_ t ix = full_min t.
Proof.
  intros H. destruct (rmin_att (numel t) (fun m => at_ t (unravel (shape t) m))) as (k & Hk & E); [lia|].
  exists (unravel (shape t) k). split; auto. now apply unravel_valid.
Qed.

(** Largest value 1 or max/2, smallest the opposite, on a mesh of the right shape. *)
Definition fills_range (width height : nat) (normalize : bool) (m : tensor R) : Prop :=
  let top := if normalize then 1 else INR (Nat.max width height) / 2 in
  shape m = [width; height] /\
  is_largest (valid (shape m)) (at_ m) top /\ is_smallest (valid (shape m)) (at_ m) (- top).

Lemma rescale_fills w h nz r : shape r = [w; h] -> (1 <= numel r)%nat -> full_min r < full_max r -> (1 <= Nat.max w h)%nat ->
  fills_range w h nz (rescale_mesh (INR (Nat.max w h)) nz r).
Proof.
  intros Hs Hn Hd Hm. set (M := INR (Nat.max w h)).
  assert (HM : 0 < M) by (unfold M; apply lt_0_INR; lia).
  set (a := full_min r) in *. set (b := full_max r) in *.
  assert (V : forall ix, at_ (rescale_mesh M nz r) ix = (if nz then 2 / M else 1) * (((at_ r ix - a) / (b - a) - 1 / 2) * M)).
  { intros ix. unfold rescale_mesh. fold a b. destruct nz; cbn; field; repeat split; lra. }
  assert (Sh : shape (rescale_mesh M nz r) = shape r) by (unfold rescale_mesh; destruct nz; reflexivity).
  unfold fills_range. fold M. rewrite Sh. split; auto.
  assert (top_eq : (if nz then 1 else M / 2) = (if nz then 2 / M else 1) * (M / 2)) by (destruct nz; field; lra).
  rewrite top_eq. assert (Hc : 0 < (if nz then 2 / M else 1)) by (destruct nz; [apply Rdiv_lt_0_compat; lra|lra]).
  set (c := if nz then 2 / M else 1) in *.
  assert (Hi : 0 < / (b - a)) by (apply Rinv_0_lt_compat; lra).
  split; split.
  - destruct (full_max_att r Hn) as (ix & Hv & E). exists ix. split; auto. rewrite V, E. fold b. field. lra.
  - intros ix Hv. rewrite V. apply Rmult_le_compat_l; [lra|]. pose proof (full_max_ge r ix Hv). fold b in H.
    assert ((at_ r ix - a) / (b - a) <= 1).
    { apply Rmult_le_reg_r with (b - a); [lra|]. unfold Rdiv. rewrite Rmult_assoc, Rinv_l by lra. lra. }
    nra.
  - destruct (full_min_att r Hn) as (ix & Hv & E). exists ix. split; auto. rewrite V, E. fold a. field. lra.
  - intros ix Hv. rewrite V. pose proof (full_min_le r ix Hv). fold a in H.
    assert (0 <= (at_ r ix - a) / (b - a)) by (apply Rmult_le_pos; lra).
    replace (- (c * (M / 2))) with (c * - (M / 2)) by ring. apply Rmult_le_compat_l; [lra|]. nra.
Qed.

Lemma angle_cos_pos (i rot : nat) : (i < rot)%nat -> 0 < cos (PI / 2 * (INR i / INR rot)).
Proof.
  intros H. assert (0 < INR rot) by (apply lt_0_INR; lia). pose proof (pos_INR i). apply lt_INR in H. pose proof PI_RGT_0.
  assert (0 <= INR i / INR rot) by (apply Rmult_le_pos; [auto|left; now apply Rinv_0_lt_compat]).
  assert (INR i / INR rot < 1).
  { apply Rmult_lt_reg_r with (INR rot); auto. unfold Rdiv. rewrite Rmult_assoc, Rinv_l by lra. lra. }
  apply cos_gt_0; nra.
Qed.

Lemma mesh_span w h (p q s : R) : (2 <= w)%nat -> (1 <= h)%nat -> 0 < p -> 0 < s ->
  let r := tmap2 (fun x y => p * x + q * y) (mkT [w; h] (fun ix => s * INR (nth 0 ix 0%nat))) (mkT [w; h] (fun ix => s * INR (nth 1 ix 0%nat))) in
  full_min r < full_max r.
Proof.
  intros Hw Hh Hp Hs r.
  assert (A : full_min r <= at_ r [0%nat; 0%nat]) by (apply full_min_le; cbn; lia).
  assert (B : at_ r [1%nat; 0%nat] <= full_max r) by (apply full_max_ge; cbn; lia).
  assert (E0 : at_ r [0%nat; 0%nat] = 0) by (cbn; ring). assert (E1 : at_ r [1%nat; 0%nat] = p * s) by (cbn; ring).
  rewrite E0 in A. rewrite E1 in B. clearbody r. assert (0 < p * s) by (now apply Rmult_lt_0_compat). lra.
Qed.

Theorem C30_mesh_fills_range : forall w h rot nz, (2 <= w)%nat -> (1 <= h)%nat ->
  exists ms, positions_from_mesh w h rot nz = Ok ms /\ length ms = (2 * rot)%nat /\ Forall (fills_range w h nz) ms.
Proof.
  intros w h rot nz Hw Hh. unfold positions_from_mesh.
  destruct (Nat.eqb_spec (Nat.max w h) 1); [lia|]. destruct (Nat.eqb_spec (w * h) 0); [nia|]. cbn [andb].
  eexists; split; [reflexivity|]. split.
  - rewrite (flat_map_length_const _ 2%nat); [rewrite seq_length; lia|reflexivity].
  - apply Forall_forall. intros m Hm. apply in_flat_map in Hm. destruct Hm as (i & Hi & Hm). apply in_seq in Hi.
    pose proof (angle_cos_pos i rot ltac:(lia)) as Hc.
    assert (2 <= INR (Nat.max w h)) by (replace 2 with (INR 2) by reflexivity; apply le_INR; lia).
    assert (Hs : 0 < INR (Nat.max w h) / (INR (Nat.max w h) - 1)) by (apply Rdiv_lt_0_compat; lra).
    set (s := INR (Nat.max w h) / (INR (Nat.max w h) - 1)) in *.
    set (c := cos (PI / 2 * (INR i / INR rot))) in *. set (sn := sin (PI / 2 * (INR i / INR rot))) in *.
    destruct Hm as [<-|[<-|[]]]; apply rescale_fills; try reflexivity; try (unfold numel; cbn; nia); try lia.
    + apply mesh_span; auto.
    + replace (full_min _) with (full_min (tmap2 (fun x y => c * x + (- sn) * y) (mkT [w; h] (fun ix => s * INR (nth 0 ix 0%nat))) (mkT [w; h] (fun ix => s * INR (nth 1 ix 0%nat))))).
      replace (full_max _) with (full_max (tmap2 (fun x y => c * x + (- sn) * y) (mkT [w; h] (fun ix => s * INR (nth 0 ix 0%nat))) (mkT [w; h] (fun ix => s * INR (nth 1 ix 0%nat))))).
      * apply mesh_span; auto.
      * apply rmax_ext. intros k Hk. cbn. ring.
      * apply rmin_ext. intros k Hk. cbn. ring.
Qed.
Print Assumptions C30_mesh_fills_range.

(** Whatever the number of rotations, the second mesh is a copy of the first, the x coordinate; the
    y axis announced in the documentation is not returned. *)
Theorem C30_first_two_meshes_are_x : forall w h rot, (2 <= w)%nat -> (1 <= h)%nat -> (1 <= rot)%nat ->
  exists m0 m1 ms, positions_from_mesh w h rot true = Ok (m0 :: m1 :: ms) /\
  forall a b, (a < w)%nat -> (b < h)%nat ->
    at_ m0 [a; b] = 2 * INR a / (INR w - 1) - 1 /\ at_ m1 [a; b] = 2 * INR a / (INR w - 1) - 1.
Proof.
  intros w h rot Hw Hh Hr. unfold positions_from_mesh.
  destruct (Nat.eqb_spec (Nat.max w h) 1); [lia|]. destruct (Nat.eqb_spec (w * h) 0); [nia|]. cbn [andb].
  destruct rot as [|rot]; [lia|]. cbn [seq flat_map app].
  eexists; eexists; eexists; split; [reflexivity|]. intros a b Ha Hb.
  set (N := INR (S rot)). replace (PI / 2 * (INR 0 / N)) with 0 by (cbn; unfold Rdiv; ring). rewrite cos_0, sin_0.
  set (M := INR (Nat.max w h)).
  assert (HM : 2 <= M) by (unfold M; replace 2 with (INR 2) by reflexivity; apply le_INR; lia).
  assert (Hs : 0 < M / (M - 1)) by (apply Rdiv_lt_0_compat; lra).
  set (s := M / (M - 1)) in *.
  assert (HW : 2 <= INR w) by (replace 2 with (INR 2) by reflexivity; apply le_INR; lia).
  assert (G : forall r, shape r = [w; h] -> (forall a b, at_ r [a; b] = s * INR a) ->
     at_ (rescale_mesh M true r) [a; b] = 2 * INR a / (INR w - 1) - 1).
  { intros r Sr Vr. assert (Hn : (1 <= numel r)%nat) by (unfold numel; rewrite Sr; cbn; nia).
    assert (E0 : full_min r = 0).
    { apply Rle_antisym.
      - eapply Rle_trans; [apply (full_min_le r [0%nat; 0%nat]); rewrite Sr; cbn; lia|]. rewrite Vr. cbn. lra.
      - destruct (full_min_att r Hn) as (ix & Hv & <-). rewrite Sr in Hv. apply valid2 in Hv. destruct Hv as (i & j & -> & _).
        rewrite Vr. pose proof (pos_INR i). nra. }
    assert (E1 : full_max r = s * (INR w - 1)).
    { apply Rle_antisym.
      - destruct (full_max_att r Hn) as (ix & Hv & <-). rewrite Sr in Hv. apply valid2 in Hv. destruct Hv as (i & j & -> & Hi & _).
        rewrite Vr. assert (INR i <= INR w - 1) by (change 1 with (INR 1); rewrite <- (minus_INR w 1) by lia; apply le_INR; lia). nra.
      - eapply Rle_trans; [|apply (full_max_ge r [(w - 1)%nat; 0%nat]); rewrite Sr; cbn; lia]. rewrite Vr, minus_INR by lia. cbn. lra. }
    unfold rescale_mesh. rewrite E0, E1. cbn [at_ tmap]. rewrite Vr. field. repeat split; lra. }
  split; apply G; try reflexivity; intros; cbn [at_ tmap2 nth]; ring.
Qed.
Print Assumptions C30_first_two_meshes_are_x.

Theorem C30_degenerate_mesh_rejected : forall rot nz, positions_from_mesh 1 1 rot nz = Err ZeroDivisionError.
Proof. reflexivity. Qed.
Print Assumptions C30_degenerate_mesh_rejected.

Example C30_example : exists ms, positions_from_mesh 3 2 2 true = Ok ms /\ length ms = 4%nat.
Proof. eexists; split; reflexivity. Qed.
