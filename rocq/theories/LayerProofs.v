(** * Proofs about the fully connected layers, in the vocabulary of the property statements. *)
From Coq Require Import Reals ZArith List Lia Lra Psatz.
From Flocq Require Import Core.Raux.
From Verif Require Import Spec Tensor Utils LagrangePolynomial Basis PolynomialLayers Observe
  SumFacts TensorFacts LagrangeFacts LayerFacts SegmentFacts.
Import ListNotations.
Local Open Scope R_scope.

(** ** Held layers *)

Lemma held_wf l : held l -> pw_wf l.
Proof.
  intros (c & n & I & O & S & len & mag & per & draw & w & H1 & H2 & H3 & H4 & Hs & ->).
  unfold pw_wf. cbn in *. repeat split; auto.
Qed.

Lemma wf_held l : pw_wf l -> held l.
Proof.
  intros (H1 & H2 & H3 & H4 & Hp & Hs).
  exists (pw_cls l), (pw_n l), (pw_in l), (pw_out l), (pw_segments l), (pw_length l), 1,
    (pw_periodicity l), (fun _ _ => 0), (pw_w l).
  repeat split; auto. destruct l; cbn in *. now rewrite Hp.
Qed.

Lemma lobatto_cheb n i : (1 <= n)%nat -> lobatto n i = cheb n i.
Proof.
  intros Hn. unfold lobatto. destruct (Nat.eqb_spec n 1) as [->|H]; [reflexivity|].
  rewrite cheb_eq, minus_INR by lia. simpl (INR 1). now rewrite (Rmult_comm PI).
Qed.

Lemma interpolates_interp n v f : (1 <= n)%nat -> interpolates n v f -> forall x, interp n 2 v x = f x.
Proof.
  intros Hn [Hp Hv] x. rewrite <- (interp_exact n 2 f) by (auto; lra).
  apply interp_ext. intros j Hj. rewrite node_2, <- lobatto_cheb by auto. symmetry. auto.
Qed.

Lemma interp_interpolates n v : (1 <= n)%nat -> interpolates n v (interp n 2 v).
Proof.
  intros Hn. split; [apply interp_poly|]. intros k Hk.
  rewrite lobatto_cheb, <- node_2 by auto. apply interp_node; auto; lra.
Qed.

Lemma weight_pos_eq c n s k : weight_pos c n s k = (s * pw_stride c n + k)%nat.
Proof. now destruct c. Qed.

Lemma seg_weight_eq l o i s k : seg_weight l o i s k = at_ (pw_w l) [o; i; weight_pos (pw_cls l) (pw_n l) s k].
Proof. unfold seg_weight. now rewrite weight_pos_eq. Qed.

Lemma x_local_seg l x s : (1 <= pw_segments l)%nat -> pw_length l = 2 ->
  x_local l x (Z.of_nat s) = seg_local (pw_segments l) s x.
Proof. intros H HL. rewrite x_local_eq, HL by auto. unfold seg_local. field. Qed.

Lemma combine_ext a m f g : (forall i, (i < m)%nat -> f i = g i) -> combine_links a m f = combine_links a m g.
Proof.
  intros H. unfold combine_links. destruct a.
  - rewrite (rsum_ext m f g H), (rprod_ext m (fun i => f i + 1) (fun i => g i + 1)); auto.
    intros; now rewrite H.
  - now apply rsum_ext.
Qed.

(** ** Output of one unit *)

Lemma layer_out_eq l v o : held l -> (o < pw_out l)%nat ->
  layer_out l v o = combine_links (alpha_of (pw_cls l)) (pw_in l) (fun i => link l o i (v i)).
Proof.
  intros H Ho. apply held_wf in H. unfold layer_out.
  destruct (pw_forward_spec l (one_sample (pw_in l) v) 1 H) as (y & -> & _ & Hy); [reflexivity|].
  cbn. rewrite Hy by lia. reflexivity.
Qed.

Lemma forward_rows l x B : held l -> shape x = [B; pw_in l] ->
  exists y, Piecewise_forward l x = Ok y /\ shape y = [B; pw_out l] /\
    forall b o, (b < B)%nat -> (o < pw_out l)%nat -> at_ y [b; o] = layer_out l (row x b) o.
Proof.
  intros H Hx. destruct (pw_forward_spec l x B (held_wf l H) Hx) as (y & E & Hs & Hy).
  exists y. repeat split; auto. intros b o Hb Ho. rewrite Hy, layer_out_eq by auto. reflexivity.
Qed.

Lemma alpha_sum c : sum_class c -> alpha_of c = None.
Proof. now intros [-> | ->]. Qed.

Lemma cont_class c : continuous_class c <-> is_continuous_class c = true.
Proof. unfold continuous_class. destruct c; cbn; intuition congruence. Qed.

Lemma disc_class c : discontinuous_class c <-> is_continuous_class c = false.
Proof. unfold discontinuous_class. destruct c; cbn; intuition congruence. Qed.

Lemma layer_out_sum l v o : held l -> sum_class (pw_cls l) -> (o < pw_out l)%nat ->
  layer_out l v o = rsum (pw_in l) (fun i => link l o i (v i)).
Proof. intros H Hc Ho. rewrite layer_out_eq, alpha_sum by auto. reflexivity. Qed.

(** The link function through any description of the segment polynomials. *)
Lemma link0_spec l o i s x P : held l -> pw_length l = 2 -> in_segment (pw_segments l) s x ->
  interpolates (pw_n l) (fun k => at_ (pw_w l) [o; i; weight_pos (pw_cls l) (pw_n l) s k]) P ->
  link0 l o i x = P (seg_local (pw_segments l) s x).
Proof.
  intros H HL Hin HP. apply held_wf in H. destruct H as (Hn & HS & _).
  assert (E : seg l x = s) by (apply seg_spec; auto; apply Hin).
  unfold link0, piece. rewrite E, x_local_seg by auto.
  rewrite <- (interpolates_interp (pw_n l) _ P) with (x := seg_local (pw_segments l) s x) (2 := HP); auto.
  apply interp_ext. intros. apply seg_weight_eq.
Qed.

Lemma layer_spec l v o P sel : held l -> pw_length l = 2 -> pw_periodicity l = None ->
  sum_class (pw_cls l) -> (o < pw_out l)%nat ->
  (forall i s, interpolates (pw_n l) (fun k => at_ (pw_w l) [o; i; weight_pos (pw_cls l) (pw_n l) s k]) (P i s)) ->
  (forall i, (i < pw_in l)%nat -> in_segment (pw_segments l) (sel i) (v i)) ->
  layer_out l v o = rsum (pw_in l) (fun i => P i (sel i) (seg_local (pw_segments l) (sel i) (v i))).
Proof.
  intros H HL Hp Hc Ho HP Hsel. rewrite layer_out_sum by auto.
  apply rsum_ext. intros i Hi. unfold link. rewrite Hp. cbn [apply_periodicity].
  now apply link0_spec; [auto|auto|apply Hsel|apply HP].
Qed.

(** ** Node values *)

Lemma in_segment_global S s t : (1 <= S)%nat -> (s < S)%nat -> -1 <= t < 1 -> in_segment S s (seg_global S s t).
Proof.
  intros HS Hs Ht. assert (P := INR_pos S HS). unfold in_segment, seg_global.
  assert (0 <= (t + 1) / INR S) by (apply Rmult_le_pos; [lra|left; now apply Rinv_0_lt_compat]).
  assert ((t + 1) / INR S < 2 / INR S) by (apply Rmult_lt_compat_r; [now apply Rinv_0_lt_compat|lra]).
  repeat split; auto; right; [lra|]. rewrite knot_succ by auto. lra.
Qed.

Lemma in_segment_last S t : (1 <= S)%nat -> -1 <= t -> in_segment S (S - 1) (seg_global S (S - 1) t).
Proof.
  intros HS Ht. assert (P := INR_pos S HS). unfold in_segment, seg_global.
  assert (0 <= (t + 1) / INR S) by (apply Rmult_le_pos; [lra|left; now apply Rinv_0_lt_compat]).
  repeat split; [lia|right; lra|left; lia].
Qed.

Lemma seg_local_global S s t : (1 <= S)%nat -> seg_local S s (seg_global S s t) = t.
Proof. intros H. assert (P := INR_pos S H). unfold seg_local, seg_global. field. lra. Qed.

Lemma link0_node l o i s k : held l -> pw_length l = 2 ->
  (s < pw_segments l)%nat -> (k < pw_n l)%nat ->
  (continuous_class (pw_cls l) \/ (k + 1 < pw_n l)%nat \/ pw_n l = 1%nat \/ (s + 1)%nat = pw_segments l) ->
  link0 l o i (seg_global (pw_segments l) s (lobatto (pw_n l) k))
  = at_ (pw_w l) [o; i; weight_pos (pw_cls l) (pw_n l) s k].
Proof.
  intros H HL Hs Hk Hcase. pose proof (held_wf l H) as (Hn & HS & _).
  rewrite lobatto_cheb, <- seg_weight_eq by auto.
  assert (R := cheb_range (pw_n l) k Hk).
  assert (In : (k + 1 < pw_n l)%nat \/ pw_n l = 1%nat \/ (s + 1)%nat = pw_segments l ->
     link0 l o i (seg_global (pw_segments l) s (cheb (pw_n l) k)) = seg_weight l o i s k).
  { intros C. unfold link0.
    assert (E : seg l (seg_global (pw_segments l) s (cheb (pw_n l) k)) = s).
    { apply seg_spec; auto. destruct C as [C|[C|C]].
      - apply in_segment_global; auto. split; [lra|].
        rewrite <- (cheb_last (pw_n l)) by lia. apply cheb_increasing; lia.
      - apply in_segment_global; auto. rewrite C. rewrite cheb_1. lra.
      - replace s with (pw_segments l - 1)%nat by lia. apply in_segment_last; auto; lra. }
    rewrite E, <- x_global_seg by auto. apply piece_node; auto. lra. }
  destruct (Nat.eq_dec (pw_n l) 1) as [N1|N1]; [apply In; auto|].
  destruct (Nat.eq_dec (k + 1) (pw_n l)) as [K|K]; [|apply In; left; lia].
  destruct (Nat.eq_dec (s + 1) (pw_segments l)) as [S1|S1]; [apply In; auto|].
  destruct Hcase as [C|[C|[C|C]]]; try lia. apply cont_class in C.
  replace k with (pw_n l - 1)%nat by lia. rewrite cheb_last by lia.
  replace (seg_global (pw_segments l) s 1) with (knot (pw_segments l) (S s)).
  2:{ rewrite knot_succ by auto. unfold seg_global, Rdiv. ring. }
  unfold link0.
  assert (E : seg l (knot (pw_segments l) (S s)) = S s).
  { apply seg_spec; auto; try lia. repeat split; try lia; right; [lra|]. apply knot_lt; auto. }
  rewrite E, piece_left by (auto; lia). symmetry. now apply seg_weight_shared.
Qed.

(** ** Continuity *)

Lemma layer_continuous l o : held l -> pw_length l = 2 -> pw_cls l = PiecewisePolynomial ->
  (forall p, pw_periodicity l = Some p -> 0 < p) -> (o < pw_out l)%nat ->
  continuous_vec (pw_in l) (fun v => layer_out l v o).
Proof.
  intros H HL Hc Hp Ho. pose proof (held_wf l H) as (Hn & HS & _).
  assert (C : continuous_vec (pw_in l) (fun v => rsum (pw_in l) (fun i => link l o i (v i)))).
  { apply (continuous_vec_sum (pw_in l) (fun i => link l o i)). intros i _. apply link_continuous; auto.
    now rewrite Hc. }
  intros x eps Heps. destruct (C x eps Heps) as (d & Hd & P). exists d. split; auto.
  intros y Hy. rewrite !layer_out_sum by (auto; left; auto). auto.
Qed.

(** Product units are continuous too. *)
Lemma continuous_vec_ext n f g : (forall v, f v = g v) -> continuous_vec n f -> continuous_vec n g.
Proof.
  intros E H x eps Heps. destruct (H x eps Heps) as (d & Hd & P). exists d. split; auto.
  intros y Hy. rewrite <- !E. auto.
Qed.

Lemma continuous_vec_plus n f g : continuous_vec n f -> continuous_vec n g -> continuous_vec n (fun v => f v + g v).
Proof.
  intros Hf Hg x eps Heps.
  destruct (Hf x (eps/2)) as (d1 & Hd1 & P1); [lra|]. destruct (Hg x (eps/2)) as (d2 & Hd2 & P2); [lra|].
  exists (Rmin d1 d2). split; [now apply Rmin_pos|]. intros y Hy.
  assert (A : Rabs (f y - f x) < eps/2) by (apply P1; intros; eapply Rlt_le_trans; [apply Hy; auto|apply Rmin_l]).
  assert (B : Rabs (g y - g x) < eps/2) by (apply P2; intros; eapply Rlt_le_trans; [apply Hy; auto|apply Rmin_r]).
  replace (f y + g y - (f x + g x)) with ((f y - f x) + (g y - g x)) by ring.
  eapply Rle_lt_trans; [apply Rabs_triang|lra].
Qed.

Lemma continuous_vec_mult n f g : continuous_vec n f -> continuous_vec n g -> continuous_vec n (fun v => f v * g v).
Proof.
  intros Hf Hg x eps Heps.
  set (M := Rabs (f x) + Rabs (g x) + 1).
  assert (HM : 0 < M) by (unfold M; pose proof (Rabs_pos (f x)); pose proof (Rabs_pos (g x)); lra).
  set (e := Rmin 1 (eps / (2 * M))).
  assert (He : 0 < e). { apply Rmin_pos; [lra|]. apply Rmult_lt_0_compat; auto. apply Rinv_0_lt_compat; lra. }
  destruct (Hf x e He) as (d1 & Hd1 & P1). destruct (Hg x e He) as (d2 & Hd2 & P2).
  exists (Rmin d1 d2). split; [now apply Rmin_pos|]. intros y Hy.
  assert (A : Rabs (f y - f x) < e) by (apply P1; intros; eapply Rlt_le_trans; [apply Hy; auto|apply Rmin_l]).
  assert (B : Rabs (g y - g x) < e) by (apply P2; intros; eapply Rlt_le_trans; [apply Hy; auto|apply Rmin_r]).
  assert (e1 : e <= 1) by apply Rmin_l.
  assert (e2 : e * (2 * M) <= eps).
  { apply Rle_trans with (eps / (2 * M) * (2 * M)).
    - apply Rmult_le_compat_r; [lra|apply Rmin_r].
    - right. field. lra. }
  replace (f y * g y - f x * g x) with ((f y - f x) * g x + (f x * (g y - g x) + (f y - f x) * (g y - g x))) by ring.
  eapply Rle_lt_trans; [apply Rabs_triang|].
  assert (T1 : Rabs ((f y - f x) * g x) <= e * Rabs (g x)).
  { rewrite Rabs_mult. apply Rmult_le_compat_r; [apply Rabs_pos|lra]. }
  assert (T2 : Rabs (f x * (g y - g x) + (f y - f x) * (g y - g x)) <= Rabs (f x) * e + e * 1).
  { eapply Rle_trans; [apply Rabs_triang|]. rewrite !Rabs_mult. apply Rplus_le_compat.
    - apply Rmult_le_compat_l; [apply Rabs_pos|lra].
    - apply Rmult_le_compat; try apply Rabs_pos; lra. }
  unfold M in *. pose proof (Rabs_pos (f x)); pose proof (Rabs_pos (g x)). nra.
Qed.

Lemma continuous_vec_const n c : continuous_vec n (fun _ => c).
Proof. intros x eps Heps. exists 1. split; [lra|]. intros. rewrite Rminus_diag_eq, Rabs_R0; auto. Qed.

Lemma continuous_vec_coord n i g : (i < n)%nat -> continuity g -> continuous_vec n (fun v => g (v i)).
Proof.
  intros Hi Hg x eps Heps. destruct (proj1 (continuity_eps g (x i)) (Hg (x i)) eps Heps) as (d & Hd & P).
  exists d. split; auto.
Qed.

Lemma continuous_vec_rsum n m (F : nat -> (nat -> R) -> R) : (forall i, (i < m)%nat -> continuous_vec n (F i)) ->
  continuous_vec n (fun v => rsum m (fun i => F i v)).
Proof.
  induction m; intros H; simpl; [apply continuous_vec_const|].
  apply continuous_vec_plus; [apply IHm; intros; apply H; lia|apply H; lia].
Qed.

Lemma continuous_vec_rprod n m (F : nat -> (nat -> R) -> R) : (forall i, (i < m)%nat -> continuous_vec n (F i)) ->
  continuous_vec n (fun v => rprod m (fun i => F i v)).
Proof.
  induction m; intros H; simpl; [apply continuous_vec_const|].
  apply continuous_vec_mult; [apply IHm; intros; apply H; lia|apply H; lia].
Qed.

Lemma layer_continuous_links l o : held l -> (forall i, continuity (link l o i)) -> (o < pw_out l)%nat ->
  continuous_vec (pw_in l) (fun v => layer_out l v o).
Proof.
  intros H L Ho. pose proof (held_wf l H) as (Hn & HS & _).
  apply (continuous_vec_ext _ (fun v => combine_links (alpha_of (pw_cls l)) (pw_in l) (fun i => link l o i (v i)))).
  { intros v. now rewrite layer_out_eq. }
  unfold combine_links. destruct (alpha_of (pw_cls l)) as [a|].
  - apply continuous_vec_plus; [apply (continuous_vec_plus _ _ (fun _ => -1))|].
    + apply (continuous_vec_rprod _ _ (fun i v => link l o i (v i) + 1)). intros i Hi.
      apply (continuous_vec_coord _ i (fun t => link l o i t + 1)); auto.
      apply (continuity_plus (link l o i) (fun _ => 1)); auto.
      intros t. apply continuity_pt_const. intros ? ?; reflexivity.
    + apply continuous_vec_const.
    + apply continuous_vec_mult; [apply continuous_vec_const|].
      apply continuous_vec_rsum. intros i Hi. now apply continuous_vec_coord.
  - apply continuous_vec_rsum. intros i Hi. now apply continuous_vec_coord.
Qed.

Lemma layer_continuous_all l o : held l -> pw_length l = 2 -> continuous_class (pw_cls l) ->
  (forall p, pw_periodicity l = Some p -> 0 < p) -> (o < pw_out l)%nat ->
  continuous_vec (pw_in l) (fun v => layer_out l v o).
Proof.
  intros H HL Hc Hp Ho. pose proof (held_wf l H) as (Hn & HS & _).
  apply layer_continuous_links; auto. intros i. apply link_continuous; auto. now apply cont_class.
Qed.

(** ** Discontinuous layers *)

(** Away from the interior knots a link is locally one polynomial. *)
Lemma link0_local l o i x : held l -> pw_length l = 2 ->
  (forall s, (0 < s < pw_segments l)%nat -> x <> knot (pw_segments l) s) ->
  exists d, 0 < d /\ forall y, Rabs (y - x) < d -> link0 l o i y = piece l o i (seg l x) y.
Proof.
  intros H HL Hx. pose proof (held_wf l H) as (Hn & HS & _).
  set (s := seg l x). pose proof (seg_in l x HL HS) as (Hs & Hl & Hr). fold s in Hs, Hl, Hr.
  set (dl := if Nat.eq_dec s 0 then 1 else x - knot (pw_segments l) s).
  set (dr := if Nat.eq_dec (pw_segments l) (S s) then 1 else knot (pw_segments l) (S s) - x).
  exists (Rmin dl dr). split.
  - apply Rmin_pos.
    + unfold dl. destruct (Nat.eq_dec s 0); [lra|]. destruct Hl as [|Hl]; [contradiction|].
      assert (x <> knot (pw_segments l) s) by (apply Hx; lia). lra.
    + unfold dr. destruct (Nat.eq_dec (pw_segments l) (S s)); [lra|]. destruct Hr as [|Hr]; [contradiction|lra].
  - intros y Hy.
    assert (Y1 : Rabs (y - x) < dl) by (eapply Rlt_le_trans; [apply Hy|apply Rmin_l]).
    assert (Y2 : Rabs (y - x) < dr) by (eapply Rlt_le_trans; [apply Hy|apply Rmin_r]).
    apply Rabs_def2 in Y1. apply Rabs_def2 in Y2.
    unfold link0. assert (E : seg l y = s); [|now rewrite E].
    apply seg_spec; auto. repeat split; auto.
    + unfold dl in Y1. destruct (Nat.eq_dec s 0); auto. right. lra.
    + unfold dr in Y2. destruct (Nat.eq_dec (pw_segments l) (S s)); auto. right. lra.
Qed.

Lemma link0_cont_off_knots l o i x : held l -> pw_length l = 2 ->
  (forall s, (0 < s < pw_segments l)%nat -> x <> knot (pw_segments l) s) ->
  continuity_pt (link0 l o i) x.
Proof.
  intros H HL Hx. pose proof (held_wf l H) as (Hn & HS & _).
  destruct (link0_local l o i x H HL Hx) as (d & Hd & E).
  apply continuity_eps. intros eps Heps.
  destruct (proj1 (continuity_eps _ x) (piece_continuous l o i (seg l x) HS x) eps Heps) as (d' & Hd' & P).
  exists (Rmin d d'). split; [now apply Rmin_pos|]. intros y Hy.
  rewrite (E y), (E x).
  - apply P. eapply Rlt_le_trans; [apply Hy|apply Rmin_r].
  - rewrite Rminus_diag_eq, Rabs_R0; auto.
  - eapply Rlt_le_trans; [apply Hy|apply Rmin_l].
Qed.

(** Just left of a knot the previous piece is active. *)
Lemma link0_left_of_knot l o i s y : held l -> pw_length l = 2 -> (S s < pw_segments l)%nat ->
  knot (pw_segments l) s <= y < knot (pw_segments l) (S s) -> link0 l o i y = piece l o i s y.
Proof.
  intros H HL Hs Hy. pose proof (held_wf l H) as (Hn & HS & _).
  unfold link0. assert (E : seg l y = s); [|now rewrite E].
  apply seg_spec; auto; try lia. repeat split; [lia|right; lra|right; lra].
Qed.

Lemma link0_at_knot l o i s : held l -> pw_length l = 2 -> (2 <= pw_n l)%nat -> (s < pw_segments l)%nat ->
  link0 l o i (knot (pw_segments l) s) = seg_weight l o i s 0.
Proof.
  intros H HL Hn2 Hs. pose proof (held_wf l H) as (Hn & HS & _).
  unfold link0. assert (E : seg l (knot (pw_segments l) s) = s).
  { apply seg_spec; auto. repeat split; auto; right; [lra|]. apply knot_lt; auto. }
  rewrite E. now apply piece_left.
Qed.

Lemma link0_left_limit l o i s : held l -> pw_length l = 2 -> (2 <= pw_n l)%nat -> (S s < pw_segments l)%nat ->
  forall eps, 0 < eps -> exists d, 0 < d /\ forall y,
    knot (pw_segments l) (S s) - d < y < knot (pw_segments l) (S s) ->
    Rabs (link0 l o i y - seg_weight l o i s (pw_n l - 1)) < eps.
Proof.
  intros H HL Hn2 Hs eps Heps. pose proof (held_wf l H) as (Hn & HS & _).
  destruct (proj1 (continuity_eps _ _) (piece_continuous l o i s HS (knot (pw_segments l) (S s))) eps Heps) as (d & Hd & P).
  exists (Rmin d (knot (pw_segments l) (S s) - knot (pw_segments l) s)). split.
  - apply Rmin_pos; auto. pose proof (knot_lt (pw_segments l) s (S s) HS (Nat.lt_succ_diag_r s)). lra.
  - intros y Hy.
    assert (Rmin d (knot (pw_segments l) (S s) - knot (pw_segments l) s) <= d) by apply Rmin_l.
    assert (Rmin d (knot (pw_segments l) (S s) - knot (pw_segments l) s) <= knot (pw_segments l) (S s) - knot (pw_segments l) s) by apply Rmin_r.
    rewrite (link0_left_of_knot l o i s y) by (auto; lra).
    rewrite <- (piece_right l o i s) by auto. apply P. apply Rabs_def1; lra.
Qed.

(** ** Dependence on the weights *)

Lemma with_w_held l w : held l -> shape w = shape (pw_w l) -> held (with_w l w).
Proof.
  intros H Hs. apply wf_held. apply held_wf in H. destruct H as (H1 & H2 & H3 & H4 & H5 & H6).
  unfold pw_wf. cbn. repeat split; auto. congruence.
Qed.

Lemma seg_with_w l w x : seg (with_w l w) x = seg l x.
Proof. reflexivity. Qed.

Lemma link_with_w l w o i x :
  link (with_w l w) o i x =
  let x' := apply_periodicity (pw_periodicity l) x in
  interp (pw_n l) 2 (fun k => at_ w [o; i; weight_pos (pw_cls l) (pw_n l) (seg l x') k])
    (x_local l x' (Z.of_nat (seg l x'))).
Proof.
  unfold link, link0, piece. cbn. apply interp_ext. intros j Hj. unfold seg_weight. cbn.
  now rewrite weight_pos_eq.
Qed.

Lemma which_segment_seg l x : (1 <= pw_segments l)%nat ->
  which_segment l x = Z.of_nat (seg l (apply_periodicity (pw_periodicity l) x)).
Proof. intros H. unfold which_segment. now apply seg_Z. Qed.

Lemma locality l w1 w2 v o : held l -> shape w1 = shape (pw_w l) -> shape w2 = shape (pw_w l) ->
  (o < pw_out l)%nat ->
  (forall i k, (i < pw_in l)%nat -> (k < pw_n l)%nat ->
     let s := Z.to_nat (which_segment l (v i)) in
     at_ w1 [o; i; weight_pos (pw_cls l) (pw_n l) s k] = at_ w2 [o; i; weight_pos (pw_cls l) (pw_n l) s k]) ->
  layer_out (with_w l w1) v o = layer_out (with_w l w2) v o.
Proof.
  intros H H1 H2 Ho E. pose proof (held_wf l H) as (Hn & HS & _).
  rewrite !layer_out_eq by (auto using with_w_held). cbn [pw_cls pw_in with_w].
  apply combine_ext. intros i Hi. rewrite !link_with_w. cbv zeta. apply interp_ext. intros k Hk.
  specialize (E i k Hi Hk). cbv zeta in E. rewrite which_segment_seg, Nat2Z.id in E by auto. exact E.
Qed.

(** Changing one weight. *)
Lemma interp_linear n v w a x : interp n 2 (fun k => v k + a * w k) x = interp n 2 v x + a * interp n 2 w x.
Proof.
  unfold interp. rewrite <- rsum_scal, <- rsum_plus. apply rsum_ext. intros; ring.
Qed.

Lemma weight_pos_inj c n s k k' : (k < n)%nat -> (k' < n)%nat ->
  weight_pos c n s k = weight_pos c n s k' -> k = k'.
Proof. rewrite !weight_pos_eq. lia. Qed.

Definition delta_at (p q : nat) : R := if Nat.eqb p q then 1 else 0.

Lemma link_upd l o' i' p t o i x : held l ->
  link (with_w l (upd (pw_w l) [o'; i'; p] t)) o i x =
  link l o i x + (t - at_ (pw_w l) [o'; i'; p]) *
    (if (Nat.eqb o o' && Nat.eqb i i')%bool then
       interp (pw_n l) 2 (fun k => delta_at (weight_pos (pw_cls l) (pw_n l) (Z.to_nat (which_segment l x)) k) p)
         (x_local l (apply_periodicity (pw_periodicity l) x) (which_segment l x))
     else 0).
Proof.
  intros H. pose proof (held_wf l H) as (Hn & HS & _).
  rewrite link_with_w. cbv zeta.
  set (x' := apply_periodicity (pw_periodicity l) x).
  rewrite which_segment_seg by auto. fold x'. rewrite Nat2Z.id.
  assert (E0 : link l o i x = interp (pw_n l) 2 (fun k => at_ (pw_w l) [o; i; weight_pos (pw_cls l) (pw_n l) (seg l x') k]) (x_local l x' (Z.of_nat (seg l x')))).
  { unfold link, link0, piece. fold x'. apply interp_ext. intros; apply seg_weight_eq. }
  rewrite E0. destruct (Nat.eqb_spec o o') as [->|Ho]; cbn [andb].
  - destruct (Nat.eqb_spec i i') as [->|Hi].
    + rewrite <- interp_linear. apply interp_ext. intros k Hk. unfold delta_at. cbn [upd at_ index_eqb].
      rewrite !Nat.eqb_refl. cbn [andb]. rewrite Bool.andb_true_r.
      destruct (Nat.eqb_spec (weight_pos (pw_cls l) (pw_n l) (seg l x') k) p) as [->|N]; ring.
    + rewrite Rmult_0_r, Rplus_0_r. apply interp_ext. intros k Hk. rewrite upd_other; [auto|congruence].
  - rewrite Rmult_0_r, Rplus_0_r. apply interp_ext. intros k Hk. rewrite upd_other; [auto|congruence].
Qed.

Lemma derivable_affine a b t0 f : (forall t, f t = a * t + b) -> derivable_pt_lim f t0 a.
Proof.
  intros E eps Heps. exists (mkposreal 1 Rlt_0_1). intros h Hh _.
  rewrite !E. replace ((a * (t0 + h) + b - (a * t0 + b)) / h - a) with 0 by (field; auto).
  rewrite Rabs_R0. auto.
Qed.

(** Partial derivative of an output of a sum unit with respect to a weight. *)
Lemma weight_derivative l v o o' i' p t0 : held l -> sum_class (pw_cls l) -> (o < pw_out l)%nat -> (i' < pw_in l)%nat ->
  derivable_pt_lim (fun t => layer_out (with_w l (upd (pw_w l) [o'; i'; p] t)) v o) t0
    (if Nat.eqb o o' then
       interp (pw_n l) 2 (fun k => delta_at (weight_pos (pw_cls l) (pw_n l) (Z.to_nat (which_segment l (v i'))) k) p)
         (x_local l (apply_periodicity (pw_periodicity l) (v i')) (which_segment l (v i')))
     else 0).
Proof.
  intros H Hc Ho Hi.
  set (D := if Nat.eqb o o' then _ else 0).
  apply (derivable_affine D (layer_out l v o - at_ (pw_w l) [o'; i'; p] * D)). intros t.
  rewrite layer_out_sum; auto; [|now apply with_w_held].
  rewrite layer_out_sum by auto. cbn [pw_in with_w].
  rewrite (rsum_ext _ _ (fun i => link l o i (v i) + (t - at_ (pw_w l) [o'; i'; p]) * (D * (if Nat.eqb i i' then 1 else 0)))).
  - rewrite rsum_plus, rsum_scal. rewrite (rsum_delta (pw_in l) i' (fun _ => D)) by auto. ring.
  - intros i _. rewrite link_upd by auto. f_equal. f_equal. unfold D.
    destruct (Nat.eqb o o'); cbn [andb]; [|ring].
    destruct (Nat.eqb_spec i i') as [->|]; ring.
Qed.

(** ** Constant initialisation *)

Lemma link_const l o i c x : held l ->
  (forall p, (p < pw_num_weights (pw_cls l) (pw_n l) (pw_segments l))%nat -> at_ (pw_w l) [o; i; p] = c) ->
  link l o i x = c.
Proof.
  intros H Hw. pose proof (held_wf l H) as (Hn & HS & _).
  unfold link, link0, piece. rewrite <- (interp_const (pw_n l) 2 c (x_local l (apply_periodicity (pw_periodicity l) x) (Z.of_nat (seg l (apply_periodicity (pw_periodicity l) x))))) by (auto; lra).
  apply interp_ext. intros k Hk. rewrite seg_weight_eq, weight_pos_eq. apply Hw.
  apply weight_index_lt; auto. now apply seg_lt.
Qed.

Lemma new_held c n I O S len mag per draw : (1 <= n)%nat -> (1 <= S)%nat -> (1 <= I)%nat -> (1 <= O)%nat ->
  held (new_piecewise c n I O S len mag per draw).
Proof.
  intros. exists c, n, I, O, S, len, mag, per, draw, (pw_w (new_piecewise c n I O S len mag per draw)).
  repeat split; auto.
Qed.

(** ** Single-polynomial layers *)


Lemma function_spec n b p w x B I O : (1 <= n)%nat -> shape w = [O; I; n] -> shape x = [B; I] ->
  exists y, Function_forward (mkFunc n b p w) x = Ok y /\ shape y = [B; O] /\
    forall b' o, (b' < B)%nat -> (o < O)%nat ->
      at_ y [b'; o] = rsum I (fun i => rsum n (fun k => call b (apply_periodicity p (at_ x [b'; i])) k * at_ w [o; i; k])).
Proof.
  intros Hn Hw Hx. unfold Function_forward, BasisFlat_interpolate, stack_basis.
  cbn [f_n f_basis f_periodicity f_w].
  destruct (Nat.eqb_spec n 0) as [|_]; [lia|]. cbn [rbind].
  unfold einsum2. cbn [shape stack tmap]. rewrite Hx, Hw. cbn. rewrite !bsize_refl. cbn.
  eexists; split; [reflexivity|]. split; [reflexivity|].
  intros b' o Hb Ho. cbn. rewrite rsum_swap. apply rsum_ext. intros i Hi. apply rsum_ext. intros v Hv.
  rewrite !(bc_id B), !(bc_id I), !(bc_id O), !(bc_id n) by auto. reflexivity.
Qed.
