(** * Networks behind a fixed rotation layer: what they compute and represent (C117). *)
From Coq Require Import String Reals Lra ZArith List Lia Bool Arith Psatz.
From Verif Require Import Spec Tensor Utils LagrangePolynomial Basis PolynomialLayers Refine ProductLayer LagrangeND Rotation Layers Networks
  Observe ObserveNet SumFacts TensorFacts LagrangeFacts LayerFacts SegmentFacts LayerProofs RefineFacts HeapFacts NetFacts NetCopy NetTypes
  Prop_Rotation Prop_MLP Prop_Approx Prop_Represent.
Import ListNotations.
Local Open Scope R_scope.

(** The features of the docstring of layers.py 298-312, in their order: every input x, followed for every later input y by
    the coordinates of (x,y) along the axes at r/rotations of a right angle, r = 1 .. rotations-1, and along those
    orthogonal to them, scaled so that the absolute coefficients add up to 1. *)
Definition pair_features (rotations : nat) (x y : R) : list R :=
  flat_map (fun r => let t := PI / 2 * (INR r / INR rotations) in
    [(cos t * x + sin t * y) / (Rabs (cos t) + Rabs (sin t)); (sin t * x - cos t * y) / (Rabs (cos t) + Rabs (sin t))])
    (seq 1 (rotations - 1)).
Fixpoint features (rotations : nat) (v : list R) : list R :=
  match v with
  | [] => []
  | x :: v => x :: flat_map (pair_features rotations x) v ++ features rotations v
  end.
(** Sample [b] of a batch of [n] inputs. *)
Definition sample (x : tensor R) (n b : nat) : list R := map (fun i => at_ x [b; i]) (seq 0 n).

(** ** The features of a batch *)
Definition dot (n : nat) (v : nat -> R) (w : list R) : R := rsum n (fun k => v k * nth k w 0).

Lemma dot_axis n v i : (i < n)%nat -> dot n v (list_set i 1 (repeat 0 n)) = v i.
Proof.
  intros Hi. unfold dot. rewrite (rsum_ext n _ (fun k => axis_row i k * v k)); [now apply rsum_axis|].
  intros k Hk. rewrite nth_list_set, nth_repeat0 by (rewrite repeat_length; lia). unfold axis_row. destruct (Nat.eqb k i); ring.
Qed.
Lemma dot_pair n rot v i j r : (1 <= rot)%Z -> (i < j)%nat -> (j < n)%nat ->
  map (dot n v) (rotation_pair n rot true i j r)
  = let t := PI / 2 * (INR r / INR (Z.to_nat rot)) in
    [(cos t * v i + sin t * v j) / (Rabs (cos t) + Rabs (sin t)); (sin t * v i - cos t * v j) / (Rabs (cos t) + Rabs (sin t))].
Proof.
  intros Hr Hij Hj. destruct (pair_rows n rot true i j r Hij Hj) as (a & b & -> & Va & Vb). cbv zeta in Va, Vb.
  assert (Ea : angle rot r = PI / 2 * (INR r / INR (Z.to_nat rot))) by (unfold angle; now rewrite INR_IZR_INZ with (n := Z.to_nat rot), Z2Nat.id by lia).
  rewrite Ea in *. set (t := PI / 2 * (INR r / INR (Z.to_nat rot))) in *. cbv zeta. cbn [map]. unfold row_scale in *.
  assert (D : forall w c d, (forall k, nth k w 0 = plane_row i j c d k) -> dot n v w = c * v i + d * v j).
  { intros w c d Q. unfold dot. rewrite <- (rsum_plane n i j c d v) by lia. apply rsum_ext. intros k Hk. rewrite Q. ring. }
  rewrite (D _ _ _ Va), (D _ _ _ Vb). unfold Rdiv. f_equal; [ring|]. f_equal. ring.
Qed.
Lemma map_flat_map {A B C} (f : B -> C) (F : A -> list B) l : map f (flat_map F l) = flat_map (fun a => map f (F a)) l.
Proof. induction l; cbn; auto. now rewrite map_app, IHl. Qed.
Lemma flat_map_map {A B C} (f : A -> B) (F : B -> list C) l : flat_map F (map f l) = flat_map (fun a => F (f a)) l.
Proof. induction l; cbn; auto. now rewrite IHl. Qed.
Lemma flat_map_ext_in {A B} (F G : A -> list B) l : (forall a, In a l -> F a = G a) -> flat_map F l = flat_map G l.
Proof. induction l; cbn; auto; intros H. rewrite H by auto. f_equal. auto. Qed.

Lemma combos_features n rot v : (1 <= rot)%Z ->
  map (dot n v) (rotation_combos n rot true) = features (Z.to_nat rot) (map v (seq 0 n)).
Proof.
  intros Hr. unfold rotation_combos.
  assert (G : forall k s, (s + k = n)%nat ->
     map (dot n v) (flat_map (fun i => list_set i 1 (repeat 0 n) ::
       flat_map (fun j => flat_map (fun r => rotation_pair n rot true i j r) (seq 1 (Z.to_nat rot - 1))) (seq (i + 1) (n - (i + 1)))) (seq s k))
     = features (Z.to_nat rot) (map v (seq s k))).
  { induction k; intros s Hs; [reflexivity|]. cbn [seq flat_map map features]. rewrite map_app. cbn [map app].
    rewrite dot_axis by lia. rewrite IHk by lia. rewrite map_flat_map, flat_map_map.
    replace (n - (s + 1))%nat with k by lia. replace (s + 1)%nat with (S s) by lia. cbn [app]. do 2 f_equal.
    apply flat_map_ext_in. intros j Hj. apply in_seq in Hj. rewrite map_flat_map. unfold pair_features.
    apply flat_map_ext_in. intros r _. apply dot_pair; auto; lia. }
  now apply G.
Qed.

Lemma features_length rot v : length (features rot v) = (length v + length v * (length v - 1) * (rot - 1))%nat.
Proof.
  induction v as [|x v IH]; [reflexivity|]. cbn [features length]. rewrite app_length, IH.
  rewrite (flat_map_length_const _ ((rot - 1) * 2)%nat).
  - destruct v; cbn [length]; nia.
  - intros y _. unfold pair_features. rewrite (flat_map_length_const _ 2%nat); [now rewrite seq_length|reflexivity].
Qed.

Theorem C117_features : forall n rot w width x B, (1 <= rot)%Z -> fixed_rotation_layer n rot true = Ok (w, width) ->
  shape x = [B; n] ->
  exists y, linear_forward w x = Ok y /\ shape y = [B; Z.to_nat width] /\
    forall b, (b < B)%nat -> length (features (Z.to_nat rot) (sample x n b)) = Z.to_nat width /\
      forall p, (p < Z.to_nat width)%nat -> at_ y [b; p] = nth p (features (Z.to_nat rot) (sample x n b)) 0.
Proof.
  intros n rot w width x B Hr H Sx. pose proof (fun p k => row_at n rot true w width p k Hr H) as V.
  destruct (C29_width n rot true Hr) as (w' & width' & H' & Sw & _). rewrite H in H'. injection H' as <- <-.
  unfold linear_forward. rewrite Sx, Sw, Nat.eqb_refl. eexists. split; [reflexivity|]. split; [reflexivity|]. intros b Hb.
  assert (L : length (rotation_combos n rot true) = Z.to_nat width).
  { unfold fixed_rotation_layer in H. destruct (Z.ltb_spec rot 1); [lia|]. injection H as <- <-. cbn [tensor_of_rows shape] in Sw. now injection Sw. }
  pose proof (combos_features n rot (fun i => at_ x [b; i]) Hr) as C. fold (sample x n b) in C.
  split; [now rewrite <- C, map_length|]. intros p Hp. rewrite <- C.
  rewrite (nth_indep _ 0 (dot n (fun i => at_ x [b; i]) [])) by (rewrite map_length; lia). rewrite map_nth. cbn [at_ nth]. unfold dot.
  apply rsum_ext. intros k Hk. now rewrite V.
Qed.
Print Assumptions C117_features.

(** ** transform_mlp and transform_low_mlp *)
(** The options of the HighOrderMLP: those given, and the defaults for those transform_mlp does not have. *)
Definition defaults_for (a : mlp_args) (width : nat) : mlp_args :=
  {| ma_layer_type := ma_layer_type a; ma_n := ma_n a; ma_in_width := width; ma_out_width := ma_out_width a;
     ma_hidden_layers := ma_hidden_layers a; ma_hidden_width := ma_hidden_width a; ma_scale := ma_scale a;
     ma_n_in := ma_n_in a; ma_n_out := ma_n_out a; ma_n_hidden := ma_n_hidden a;
     ma_rescale_output := false; ma_periodicity := ma_periodicity a; ma_non_linearity := None;
     ma_in_segments := ma_in_segments a; ma_out_segments := ma_out_segments a; ma_hidden_segments := ma_hidden_segments a;
     ma_normalization := ma_normalization a; ma_resnet := ma_resnet a; ma_layer_type_in := None;
     ma_initialization := "constant_random"%string; ma_dropout := 0 |}.

(** [net] applies [k] to the features of its input, whatever the training of the heap's objects. *)
Definition on_features (h : heap) (net k n rotations : nat) : Prop :=
  forall h' x B, retrained h h' -> shape x = [B; n] ->
  exists xf, shape xf = [B; (n + n * (n - 1) * (rotations - 1))%nat] /\
    (forall b p, (b < B)%nat -> (p < n + n * (n - 1) * (rotations - 1))%nat -> at_ xf [b; p] = nth p (features rotations (sample x n b)) 0) /\
    call h' net x = call h' k xf.

Lemma sequential_features n rot w width h2 k kf : (1 <= rot)%Z -> fixed_rotation_layer n rot true = Ok (w, width) ->
  wf_heap h2 -> (kf < length h2)%nat -> (k < length h2)%nat -> get h2 kf = OModule (linear_forward w) [] ->
  on_features (h2 ++ [OSequential [kf; k]]) (length h2) k n (Z.to_nat rot).
Proof.
  intros Hr H W Lf Lk Gf h' x B Rt Sx. set (m := OSequential [kf; k]) in *.
  assert (W3 : wf_heap (h2 ++ [m])) by (apply wf_snoc; auto; intros j [<-|[<-|[]]]; assumption).
  assert (W4 : wf_heap h') by now apply (retrained_wf (h2 ++ [m])).
  assert (Ln : length h' = (length h2 + 1)%nat) by (destruct Rt as (-> & _); now rewrite app_length).
  assert (Gm : get h' (length h2) = m).
  { pose proof (retrained_same _ _ (length h2) Rt ltac:(rewrite app_length; cbn; lia)) as S. rewrite get_last in S. exact S. }
  assert (Gk : get h' kf = OModule (linear_forward w) []).
  { pose proof (retrained_same _ _ kf Rt ltac:(rewrite app_length; cbn; lia)) as S. rewrite get_app_l, Gf in S by exact Lf. exact S. }
  destruct (C117_features n rot w width x B Hr H Sx) as (y & Ey & Sy & Vy).
  assert (Ew : Z.to_nat width = (n + n * (n - 1) * (Z.to_nat rot - 1))%nat).
  { destruct (C29_width n rot true Hr) as (w' & width' & H' & _ & Ew). rewrite H in H'. injection H' as _ <-.
    rewrite Ew. rewrite <- (Nat2Z.id (n + _)). f_equal. destruct n; [cbn; lia|]. nia. }
  exists y. rewrite <- Ew. split; [exact Sy|]. split; [intros b p Hb Hp; now apply Vy|].
  rewrite (call_unfold h' (length h2)), Gm by (auto; lia). unfold m. cbn [obj_forward run].
  rewrite (call_unfold h' kf), Gk by (auto; lia). cbn [obj_forward]. rewrite Ey. cbn [rbind].
  destruct (call h' k y); reflexivity.
Qed.

Theorem C117_transform_mlp : forall g a rot h, wf_heap h -> flat_mlp h a -> ma_layer_type_in a = None -> (1 <= rot)%Z ->
  let n := ma_in_width a in let W := (n + n * (n - 1) * (Z.to_nat rot - 1))%nat in
  exists net k o o' h2, transform_mlp g a rot h = Ok (net, h2 ++ [o]) /\
    HighOrderMLP g (defaults_for a W) (h ++ [o']) = Ok (k, h2) /\ on_features (h2 ++ [o]) net k n (Z.to_nat rot).
Proof.
  intros g a rot h W F Hti Hr n W'. assert (Fw := fm_widths _ _ F).
  destruct (C29_width n rot true Hr) as (w & width & H & Sw & Ew).
  assert (Ew' : Z.to_nat width = W').
  { unfold W'. rewrite Ew, <- (Nat2Z.id (n + _)). f_equal. destruct n; [cbn; lia|]. nia. }
  set (f := OModule (linear_forward w) []). set (h1 := h ++ [f]).
  assert (W1 : wf_heap h1) by (apply wf_snoc; auto; now cbn).
  assert (F2 : flat_mlp h1 (defaults_for a W')).
  { destruct F. constructor; unfold defaults_for; cbn; auto; try lra; try lia; try discriminate.
    - rewrite Hti in fm_in. exact fm_in.
    - destruct Fw as (F1 & F3 & F4). split; [|now split]. apply Nat.le_trans with n; [exact F1|apply Nat.le_add_r]. }
  destruct (mlp_typed g (defaults_for a W') h1 W1 F2) as (k & e & E & We & T & _).
  exists (length (h1 ++ e)), k, (OSequential [length h; k]), f, (h1 ++ e). split.
  - unfold transform_mlp. fold n. unfold mthen at 1, mlift. rewrite H. unfold mthen at 1, alloc at 1. fold f h1. rewrite Ew'.
    change (mkMLP _ _ _ _ _ _ _ _ _ _ _ _ _ _ _ _ _ _ _ _ _) with (defaults_for a W'). rewrite (mthen_ok _ _ _ _ _ E). reflexivity.
  - split; [exact E|]. eapply sequential_features; eauto; try exact (proj1 T).
    + unfold h1. rewrite !app_length. cbn. lia.
    + rewrite get_app_l by (unfold h1; rewrite app_length; cbn; lia). apply get_last.
Qed.
Print Assumptions C117_transform_mlp.

Theorem C117_transform_low_mlp : forall g win wh wout depth nl nm rot h, wf_heap h -> (1 <= win)%nat ->
  (forall f ps, nm = Some (f, ps) -> on_width wh f) ->
  (forall k, nl = Some k -> (k < length h)%nat /\ exists f ps, get h k = OModule f ps /\ on_width wh f) ->
  (1 <= rot)%Z ->
  exists net k o o' h2, transform_low_mlp g win wh wout depth nl nm rot h = Ok (net, h2 ++ [o]) /\
    LowOrderMLP g (win + win * (win - 1) * (Z.to_nat rot - 1)) wout depth wh nl nm (h ++ [o']) = Ok (k, h2) /\
    on_features (h2 ++ [o]) net k win (Z.to_nat rot).
Proof.
  intros g win wh wout depth nl nm rot h W Hi Hn Ha Hr.
  destruct (C29_width win rot true Hr) as (w & width & H & Sw & Ew).
  assert (Ew' : Z.to_nat width = (win + win * (win - 1) * (Z.to_nat rot - 1))%nat).
  { rewrite Ew, <- (Nat2Z.id (win + _)). f_equal. destruct win; [cbn; lia|]. nia. }
  set (f := OModule (linear_forward w) []). set (h1 := h ++ [f]).
  assert (W1 : wf_heap h1) by (apply wf_snoc; auto; now cbn). rewrite <- Ew'.
  destruct (low_order_typed g (Z.to_nat width) wout depth wh nl nm h1 W1 Hn) as (k & e & E & _ & We & T).
  { intros k Hk. destruct (Ha k Hk) as (Lk & f0 & ps & Ek & P). split; [unfold h1; rewrite app_length; cbn; lia|].
    exists f0, ps. split; [|exact P]. unfold h1. now rewrite get_app_l. }
  exists (length (h1 ++ e)), k, (OSequential [length h; k]), f, (h1 ++ e). split.
  - unfold transform_low_mlp. unfold mthen at 1, mlift. rewrite H. unfold mthen at 1, alloc at 1. fold f h1.
    rewrite (mthen_ok _ _ _ _ _ E). reflexivity.
  - split; [exact E|]. eapply sequential_features; eauto; try exact (proj1 T).
    + unfold h1. rewrite !app_length. cbn. lia.
    + rewrite get_app_l by (unfold h1; rewrite app_length; cbn; lia). apply get_last.
Qed.
Print Assumptions C117_transform_low_mlp.

(** ** Quadratic functions *)
(** Families of functions that are sums of polynomials with [N] coefficients of one feature each. *)
Definition ridge (N W : nat) (feat : (nat -> R) -> nat -> R) (G : nat -> (nat -> R) -> R) : Prop :=
  exists f : nat -> nat -> R -> R, (forall o p, poly_lt N (f o p)) /\ forall o v, G o v = rsum W (fun p => f o p (feat v p)).
Lemma ridge_ext N W feat G H : (forall o v, G o v = H o v) -> ridge N W feat G -> ridge N W feat H.
Proof. intros E (f & Hf & V). exists f. split; auto. intros. now rewrite <- E. Qed.
Lemma ridge_plus N W feat G H : ridge N W feat G -> ridge N W feat H -> ridge N W feat (fun o v => G o v + H o v).
Proof.
  intros (f & Hf & V) (f' & Hf' & V'). exists (fun o p x => f o p x + f' o p x). split; [intros; now apply poly_lt_plus|].
  intros o v. now rewrite V, V', rsum_plus.
Qed.
Lemma ridge_scal N W feat (c : nat -> R) G : ridge N W feat G -> ridge N W feat (fun o v => c o * G o v).
Proof.
  intros (f & Hf & V). exists (fun o p x => c o * f o p x). split; [intros; now apply poly_lt_scal|].
  intros o v. now rewrite V, <- rsum_scal.
Qed.
Lemma ridge_sum N W feat m (G : nat -> nat -> (nat -> R) -> R) : (forall i, (i < m)%nat -> ridge N W feat (G i)) ->
  ridge N W feat (fun o v => rsum m (fun i => G i o v)).
Proof.
  induction m; intros H.
  - exists (fun _ _ _ => 0). split; [intros; apply poly_lt_zero|]. intros. cbn [rsum]. now rewrite rsum_zero.
  - cbn [rsum]. apply ridge_plus; [apply IHm|]; auto.
Qed.
Lemma ridge_one N W feat p g : (p < W)%nat -> poly_lt N g -> ridge N W feat (fun _ v => g (feat v p)).
Proof.
  intros Hp Hg. exists (fun _ q => if Nat.eqb q p then g else fun _ => 0). split.
  - intros _ q. destruct (Nat.eqb q p); auto. apply poly_lt_zero.
  - intros _ v. rewrite (rsum_single W p); auto; [now rewrite Nat.eqb_refl|]. intros q _ D. apply Nat.eqb_neq in D. now rewrite D.
Qed.

(** Features of one sample. *)
Definition feat_of (n : nat) (w : tensor R) (v : nat -> R) (p : nat) : R := rsum n (fun k => v k * at_ w [p; k]).
(** A layer behind the rotation computes such sums on [-1,1]^n. *)
Lemma ridge_layer cls nodes segments n rot w width O G : sum_class cls -> (2 <= nodes)%nat -> (1 <= segments)%nat -> (1 <= O)%nat ->
  (1 <= rot)%Z -> fixed_rotation_layer n rot true = Ok (w, width) -> (1 <= Z.to_nat width)%nat ->
  ridge nodes (Z.to_nat width) (feat_of n w) G ->
  exists l, held l /\ pw_cls l = cls /\ pw_n l = nodes /\ pw_segments l = segments /\ pw_in l = Z.to_nat width /\ pw_out l = O /\
    forall x B, shape x = [B; n] -> (forall b i, (b < B)%nat -> (i < n)%nat -> -1 <= at_ x [b; i] <= 1) ->
    exists y z, linear_forward w x = Ok y /\ Piecewise_forward l y = Ok z /\ shape z = [B; O] /\
      forall b o, (b < B)%nat -> (o < O)%nat -> at_ z [b; o] = G o (row x b).
Proof.
  intros Hc Hn2 HS HO Hr H HW (f & Hf & V).
  destruct (C29_width n rot true Hr) as (w' & width' & H' & Sw & Ew). rewrite H in H'. injection H' as <- <-.
  set (W := Z.to_nat width) in *.
  destruct (C80_sampling_layers_exist cls nodes W O segments f Hc) as (l & H1 & H2 & H3 & H4 & H5 & H6 & H7 & H8 & H9); try lia.
  exists l. split; auto. split; auto. split; auto. split; auto. split; auto. split; auto. intros x B Sx Hx.
  destruct (C29_stays_in_range n rot w width x B Hr H Sx Hx) as (y & Ey & Sy & Ry). fold W in Sy, Ry.
  destruct (forward_rows l y B H1) as (z & Ez & Sz & Vz); [now rewrite H6|]. rewrite H7 in Sz, Vz.
  exists y, z. split; [exact Ey|]. split; [exact Ez|]. split; [exact Sz|]. intros b o Hb Ho. rewrite Vz, V by auto.
  assert (Vy : forall p, (p < W)%nat -> row y b p = feat_of n w (row x b) p).
  { intros p Hp. unfold linear_forward in Ey. rewrite Sx, Sw, Nat.eqb_refl in Ey. injection Ey as <-. reflexivity. }
  pose proof (C80_near_best_approximation l o (f o) (fun i _ => f o i) 0 (row y b) H1 H2 H3 ltac:(now rewrite H4) ltac:(lia) (H9 o Ho)) as A.
  rewrite H6, H5 in A. rewrite !Rmult_0_r in A.
  assert (Z : Rabs (layer_out l (row y b) o - rsum W (fun i => f o i (row y b i))) <= 0).
  { apply A; auto.
    - intros. rewrite Rminus_eq_0, Rabs_R0. lra.
    - intros i Hi. apply Ry; auto. }
  assert (E0 : layer_out l (row y b) o = rsum W (fun i => f o i (row y b i))).
  { pose proof (Rabs_pos (layer_out l (row y b) o - rsum W (fun i => f o i (row y b i)))).
    destruct (Req_dec (layer_out l (row y b) o - rsum W (fun i => f o i (row y b i))) 0) as [D|D]; [lra|]. apply Rabs_pos_lt in D. lra. }
  rewrite E0. apply rsum_ext. intros p Hp. now rewrite Vy.
Qed.

Definition quadratic (n : nat) (d : R) (c : nat -> R) (Q : nat -> nat -> R) (v : nat -> R) : R :=
  d + rsum n (fun i => c i * v i) + rsum n (fun i => rsum n (fun j => Q i j * (v i * v j))).

(** Behind a rotation layer with at least two rotations, one layer with three nodes computes every quadratic function. *)
Theorem C117_quadratic : forall cls nodes segments n rot w width O (d : nat -> R) (c : nat -> nat -> R) (Q : nat -> nat -> nat -> R),
  sum_class cls -> (3 <= nodes)%nat -> (1 <= segments)%nat -> (1 <= n)%nat -> (1 <= O)%nat -> (2 <= rot)%Z ->
  fixed_rotation_layer n rot true = Ok (w, width) ->
  exists l, held l /\ pw_cls l = cls /\ pw_n l = nodes /\ pw_segments l = segments /\ pw_in l = Z.to_nat width /\ pw_out l = O /\
    forall x B, shape x = [B; n] -> (forall b i, (b < B)%nat -> (i < n)%nat -> -1 <= at_ x [b; i] <= 1) ->
    exists y z, linear_forward w x = Ok y /\ Piecewise_forward l y = Ok z /\ shape z = [B; O] /\
      forall b o, (b < B)%nat -> (o < O)%nat -> at_ z [b; o] = quadratic n (d o) (c o) (Q o) (row x b).
Proof.
  intros cls nodes segments n rot w width O d c Q Hc Hn3 HS Hn HO Hr H.
  destruct (C29_width n rot true ltac:(lia)) as (w' & width' & H' & Sw & Ew). rewrite H in H'. injection H' as <- <-.
  destruct (C29_rows n rot true w width ltac:(lia) H) as (_ & Ax & Pl). rewrite Sw in Ax, Pl. cbn [nth] in Ax, Pl.
  set (W := Z.to_nat width) in *. set (feat := feat_of n w).
  assert (HW : (1 <= W)%nat) by (destruct (Ax 0%nat ltac:(lia)) as (p & Hp & _); lia).
  assert (FA : forall i, (i < n)%nat -> exists p, (p < W)%nat /\ forall v, feat v p = v i).
  { intros i Hi. destruct (Ax i Hi) as (p & Hp & V). exists p. split; auto. intros v. unfold feat, feat_of.
    rewrite (rsum_ext n _ (fun k => axis_row i k * v k)) by (intros; rewrite V; ring). now apply rsum_axis. }
  assert (Lin : forall i, (i < n)%nat -> ridge nodes W feat (fun _ v => v i)).
  { intros i Hi. destruct (FA i Hi) as (p & Hp & V). apply (ridge_ext nodes W feat (fun _ v => (fun x => x) (feat v p))); [intros; apply V|].
    apply (ridge_one nodes W feat p (fun x => x)); auto. apply (poly_lt_ext nodes (fun x => x ^ 1)); [intros; ring|]. apply (poly_lt_mono 2 nodes); [lia|]. apply poly_lt_pow. }
  assert (Sq : forall i, (i < n)%nat -> ridge nodes W feat (fun _ v => v i * v i)).
  { intros i Hi. destruct (FA i Hi) as (p & Hp & V). apply (ridge_ext nodes W feat (fun _ v => (fun x => x ^ 2) (feat v p))); [intros; rewrite V; ring|].
    apply (ridge_one nodes W feat p (fun x => x ^ 2)); auto. apply (poly_lt_mono 3 nodes); [lia|]. apply poly_lt_pow. }
  assert (Mix : forall i j, (i < j < n)%nat -> ridge nodes W feat (fun _ v => v i * v j)).
  { intros i j Hij. destruct (Pl i j 1%nat Hij ltac:(lia)) as (p & q & Hp & Hq & Vp & Vq).
    set (t := angle rot 1) in *. unfold row_scale in *. pose proof (abs_cs_pos t) as Hm. set (m := Rabs (cos t) + Rabs (sin t)) in *.
    assert (Ht : 0 < t < PI / 2).
    { assert (Hz : 2 <= IZR rot) by now apply IZR_le. pose proof PI_RGT_0. unfold t, angle. cbn [INR].
      assert (0 < / IZR rot) by (apply Rinv_0_lt_compat; lra).
      assert (/ IZR rot <= / 2) by (apply Rinv_le_contravar; lra).
      unfold Rdiv at 2 4. rewrite Rmult_1_l. assert (P2 : 0 < PI / 2) by lra.
      split; [now apply Rmult_lt_0_compat|]. rewrite <- (Rmult_1_r (PI / 2)) at 2. apply Rmult_lt_compat_l; lra. }
    assert (Cs : 0 < cos t) by (apply cos_gt_0; lra). assert (Sn : 0 < sin t) by (apply sin_gt_0; lra).
    assert (Fp : forall v, feat v p = / m * cos t * v i + / m * sin t * v j).
    { intros v. unfold feat, feat_of. rewrite <- (rsum_plane n i j (/ m * cos t) (/ m * sin t) v) by lia. apply rsum_ext. intros. rewrite Vp. ring. }
    assert (Fq : forall v, feat v q = / m * sin t * v i + / m * - cos t * v j).
    { intros v. unfold feat, feat_of. rewrite <- (rsum_plane n i j (/ m * sin t) (/ m * - cos t) v) by lia. apply rsum_ext. intros. rewrite Vq. ring. }
    apply (ridge_ext nodes W feat (fun o v => m * m / (4 * cos t * sin t) * (fun x => x ^ 2) (feat v p) +
      (- (m * m) / (4 * cos t * sin t) * (fun x => x ^ 2) (feat v q) +
       ((sin t * sin t - cos t * cos t) / (4 * cos t * sin t) * (v i * v i) + (cos t * cos t - sin t * sin t) / (4 * cos t * sin t) * (v j * v j))))).
    - intros _ v. rewrite Fp, Fq. field. repeat split; lra.
    - apply ridge_plus; [|apply ridge_plus; [|apply ridge_plus]].
      + apply (ridge_scal nodes W feat (fun _ => m * m / (4 * cos t * sin t)) (fun _ v => (fun x => x ^ 2) (feat v p))). apply (ridge_one nodes W feat p (fun x => x ^ 2)); auto. apply (poly_lt_mono 3 nodes); [lia|]. apply poly_lt_pow.
      + apply (ridge_scal nodes W feat (fun _ => - (m * m) / (4 * cos t * sin t)) (fun _ v => (fun x => x ^ 2) (feat v q))). apply (ridge_one nodes W feat q (fun x => x ^ 2)); auto. apply (poly_lt_mono 3 nodes); [lia|]. apply poly_lt_pow.
      + apply (ridge_scal nodes W feat (fun _ => (sin t * sin t - cos t * cos t) / (4 * cos t * sin t))). apply Sq. lia.
      + apply (ridge_scal nodes W feat (fun _ => (cos t * cos t - sin t * sin t) / (4 * cos t * sin t))). apply Sq. lia. }
  assert (All : ridge nodes W feat (fun o v => quadratic n (d o) (c o) (Q o) v)).
  { unfold quadratic. apply ridge_plus; [apply ridge_plus|].
    - apply (ridge_ext nodes W feat (fun o v => d o * (fun _ => 1) (feat v 0%nat))); [intros; ring|].
      apply (ridge_scal nodes W feat d (fun _ v => (fun _ => 1) (feat v 0%nat))). apply (ridge_one nodes W feat 0%nat (fun _ => 1)); [lia|]. apply poly_lt_const. lia.
    - apply (ridge_sum nodes W feat n (fun i o v => c o i * v i)). intros i Hi. apply (ridge_scal nodes W feat (fun o => c o i)). now apply Lin.
    - apply (ridge_sum nodes W feat n (fun i o v => rsum n (fun j => Q o i j * (v i * v j)))). intros i Hi.
      apply (ridge_sum nodes W feat n (fun j o v => Q o i j * (v i * v j))). intros j Hj. apply (ridge_scal nodes W feat (fun o => Q o i j)).
      destruct (lt_eq_lt_dec i j) as [[L|L]|L]; [apply Mix; lia|subst; now apply Sq|].
      apply (ridge_ext nodes W feat (fun _ v => v j * v i)); [intros; ring|]. apply Mix. lia. }
  apply (ridge_layer cls nodes segments n rot w width O (fun o v => quadratic n (d o) (c o) (Q o) v)); auto; lia.
Qed.
Print Assumptions C117_quadratic.

(** ** Polynomials of two inputs *)
(** With two inputs the rotation layer has 2 rotations axes in different directions, so that one layer behind it computes every
    polynomial of total degree below 2 rotations (and below the number of nodes). *)
Definition bipoly (D : nat) (c : nat -> nat -> R) (x y : R) : R := rsum (S D) (fun k => rsum (S k) (fun j => c k j * (x ^ (k - j) * y ^ j))).

Lemma zero_coefficients n : forall c : nat -> R, (forall x, rsum n (fun k => c k * x ^ k) = 0) -> forall k, (k < n)%nat -> c k = 0.
Proof.
  induction n; intros c H k Hk; [lia|].
  assert (Sp : forall x, rsum (S n) (fun k => c k * x ^ k) = c 0%nat + x * rsum n (fun k => c (S k) * x ^ k)).
  { intros x. rewrite rsum_S_l, <- rsum_scal. cbn [pow]. rewrite Rmult_1_r. f_equal. apply rsum_ext. intros. ring. }
  assert (C0 : c 0%nat = 0) by (pose proof (H 0) as H0; rewrite Sp in H0; lra).
  destruct k as [|k]; [exact C0|]. apply (IHn (fun k => c (S k))); [|lia].
  apply (poly_roots n (fun x => rsum n (fun k => c (S k) * x ^ k)) (fun i => INR (S i))).
  - eexists. intros x. reflexivity.
  - intros i j Hi Hj Hij. apply not_INR. lia.
  - intros i Hi. pose proof (H (INR (S i))) as E. rewrite Sp, C0 in E. assert (INR (S i) <> 0) by (apply not_0_INR; lia). nra.
Qed.
Lemma poly_without m : forall k (a b : nat -> R), (m < k)%nat ->
  poly_lt k (fun x => rprod k (fun i => if Nat.eqb i m then 1 else a i * x + b i)).
Proof.
  induction k; intros a b Hm; [lia|]. cbn [rprod]. destruct (Nat.eq_dec m k) as [->|D].
  - rewrite Nat.eqb_refl. apply (poly_lt_ext (S k) (fun x => rprod k (fun i => a i * x + b i))); [|apply poly_lt_rprod].
    intros x. rewrite Rmult_1_r. apply rprod_ext. intros i Hi. destruct (Nat.eqb_spec i k); [lia|reflexivity].
  - destruct (Nat.eqb_spec k m); [congruence|]. apply poly_lt_mul_affine. apply IHk. lia.
Qed.
Lemma finite_choice {A} (a0 : A) (P : nat -> A -> Prop) k : (forall m, (m < k)%nat -> exists a, P m a) -> exists f, forall m, (m < k)%nat -> P m (f m).
Proof.
  induction k; intros H; [exists (fun _ => a0); lia|]. destruct IHk as (f & Hf); [auto|]. destruct (H k) as (a & Ha); [lia|].
  exists (fun m => if Nat.eqb m k then a else f m). intros m Hm. destruct (Nat.eqb_spec m k); [now subst|]. apply Hf. lia.
Qed.
(** The Vandermonde system of distinct numbers can be solved. *)
Lemma vandermonde k (t : nat -> R) : distinct k t -> forall j, (j < k)%nat ->
  exists c, forall i, (i < k)%nat -> rsum k (fun m => c m * t m ^ i) = if Nat.eqb i j then 1 else 0.
Proof.
  intros D j Hj. set (L := fun m x => rprod k (fun i => if Nat.eqb i m then 1 else / (t m - t i) * x + - t i * / (t m - t i))).
  assert (PL : forall m, (m < k)%nat -> exists l : nat -> R, forall x, L m x = rsum k (fun i => l i * x ^ i)).
  { intros m Hm. destruct (poly_without m k (fun i => / (t m - t i)) (fun i => - t i * / (t m - t i)) Hm) as (l & Hl). exists l. exact Hl. }
  destruct (finite_choice (fun _ => 0) (fun m l => forall x, L m x = rsum k (fun i => l i * x ^ i)) k PL) as (l & Hl). clear PL.
  assert (Lt : forall m i, (m < k)%nat -> (i < k)%nat -> L m (t i) = if Nat.eqb i m then 1 else 0).
  { intros m i Hm Hi. unfold L. destruct (Nat.eqb_spec i m) as [->|Ne].
    - apply rprod_one. intros p Hp. destruct (Nat.eqb_spec p m) as [|Np]; auto.
      assert (t m <> t p) by (apply D; auto). field. lra.
    - apply (rprod_zero k _ i); auto. cbn beta. destruct (Nat.eqb_spec i m); [congruence|]. ring. }
  exists (fun m => l m j). intros i Hi.
  assert (E : forall x, rsum k (fun m => t m ^ i * L m x) = x ^ i).
  { intros x. apply (poly_unique k (fun x => rsum k (fun m => t m ^ i * L m x)) (fun x => x ^ i) t); auto.
    - apply poly_lt_rsum. intros m Hm. apply poly_lt_scal. eexists. apply Hl. exact Hm.
    - apply (poly_lt_mono (S i) k); [lia|]. apply poly_lt_pow.
    - intros p Hp. cbn beta. rewrite (rsum_single k p); auto; [rewrite Lt, Nat.eqb_refl by auto; ring|].
      intros m Hm Nm. rewrite Lt by auto. destruct (Nat.eqb_spec p m); [congruence|]. ring. }
  assert (Z : forall x, rsum k (fun q => (rsum k (fun m => l m q * t m ^ i) - (if Nat.eqb i q then 1 else 0)) * x ^ q) = 0).
  { intros x. rewrite (rsum_ext k _ (fun q => rsum k (fun m => l m q * t m ^ i) * x ^ q - (if Nat.eqb i q then 1 else 0) * x ^ q)) by (intros; ring).
    rewrite rsum_minus. rewrite (rsum_single k i (fun q => (if Nat.eqb i q then 1 else 0) * x ^ q)); auto.
    - rewrite Nat.eqb_refl. rewrite <- (E x). rewrite (rsum_ext k _ (fun q => rsum k (fun m => t m ^ i * (l m q * x ^ q)))).
      + rewrite rsum_swap. rewrite Rmult_1_l. apply Rminus_diag_eq. apply rsum_ext. intros m Hm. rewrite Hl by auto. now rewrite rsum_scal.
      + intros q Hq. rewrite Rmult_comm, <- rsum_scal. apply rsum_ext. intros. ring.
    - intros q _ Nq. destruct (Nat.eqb_spec i q); [congruence|]. ring. }
  pose proof (zero_coefficients k _ Z j Hj) as Q. cbn beta in Q. lra.
Qed.

Lemma rsum_f_R0 n (f : nat -> R) : sum_f_R0 f n = rsum (S n) f.
Proof. induction n; [cbn; lra|]. rewrite tech5, IHn. reflexivity. Qed.
Lemma pow_sum K x y : (x + y) ^ K = rsum (S K) (fun i => C K i * (x ^ (K - i) * y ^ i)).
Proof. rewrite Rplus_comm, binomial, rsum_f_R0. apply rsum_ext. intros. ring. Qed.
Lemma C_neq K i : (i <= K)%nat -> C K i <> 0.
Proof.
  intros Hi. unfold C. apply Rmult_integral_contrapositive_currified; [apply INR_fact_neq_0|]. apply Rinv_neq_0_compat.
  apply Rmult_integral_contrapositive_currified; apply INR_fact_neq_0.
Qed.

(** Powers of axes in K different directions and of the second input give all monomials of degree K. *)
Lemma ridge_monomials N W feat K (t : nat -> R) : distinct K t ->
  (forall m, (m < K)%nat -> ridge N W feat (fun _ v => (v 0%nat + t m * v 1%nat) ^ K)) -> ridge N W feat (fun _ v => v 1%nat ^ K) ->
  forall j, (j <= K)%nat -> ridge N W feat (fun _ v => v 0%nat ^ (K - j) * v 1%nat ^ j).
Proof.
  intros D Hm Hy j Hj. destruct (Nat.eq_dec j K) as [->|Nj].
  { apply (ridge_ext N W feat (fun _ v => v 1%nat ^ K)); auto. intros. rewrite Nat.sub_diag. cbn [pow]. ring. }
  destruct (vandermonde K t D j ltac:(lia)) as (c & Hc). set (e := rsum K (fun m => c m * t m ^ K)).
  apply (ridge_ext N W feat (fun _ v => rsum K (fun m => / C K j * c m * (v 0%nat + t m * v 1%nat) ^ K) + - (/ C K j * e) * v 1%nat ^ K)).
  - intros _ v. rewrite (rsum_ext K _ (fun m => rsum (S K) (fun i => / C K j * (C K i * (v 0%nat ^ (K - i) * v 1%nat ^ i)) * (c m * t m ^ i)))).
    + rewrite rsum_swap. rewrite (rsum_ext (S K) _ (fun i => / C K j * (C K i * (v 0%nat ^ (K - i) * v 1%nat ^ i)) * rsum K (fun m => c m * t m ^ i))) by (intros; now rewrite <- rsum_scal).
      cbn [rsum]. fold e. rewrite (rsum_single K j); try lia.
      * rewrite Hc, Nat.eqb_refl by lia. rewrite Nat.sub_diag. replace (C K K) with 1 by (symmetry; unfold C; rewrite Nat.sub_diag; cbn [fact INR]; field; apply INR_fact_neq_0).
        cbn [pow]. field. apply C_neq. lia.
      * intros i Hi Ni. rewrite Hc by auto. destruct (Nat.eqb_spec i j); [congruence|]. ring.
    + intros m Hm'. rewrite pow_sum, <- rsum_scal. apply rsum_ext. intros i Hi. rewrite Rpow_mult_distr. ring.
  - apply ridge_plus.
    + apply (ridge_sum N W feat K (fun m _ v => / C K j * c m * (v 0%nat + t m * v 1%nat) ^ K)). intros m Hm'.
      apply (ridge_scal N W feat (fun _ => / C K j * c m)). now apply Hm.
    + now apply (ridge_scal N W feat (fun _ => - (/ C K j * e))).
Qed.

Theorem C117_bivariate : forall cls nodes segments rot w width O D (c : nat -> nat -> nat -> R),
  sum_class cls -> (2 <= nodes)%nat -> (D < nodes)%nat -> (D < 2 * Z.to_nat rot)%nat -> (1 <= segments)%nat -> (1 <= O)%nat -> (1 <= rot)%Z ->
  fixed_rotation_layer 2 rot true = Ok (w, width) ->
  exists l, held l /\ pw_cls l = cls /\ pw_n l = nodes /\ pw_segments l = segments /\ pw_in l = Z.to_nat width /\ pw_out l = O /\
    forall x B, shape x = [B; 2%nat] -> (forall b i, (b < B)%nat -> (i < 2)%nat -> -1 <= at_ x [b; i] <= 1) ->
    exists y z, linear_forward w x = Ok y /\ Piecewise_forward l y = Ok z /\ shape z = [B; O] /\
      forall b o, (b < B)%nat -> (o < O)%nat -> at_ z [b; o] = bipoly D (c o) (at_ x [b; 0%nat]) (at_ x [b; 1%nat]).
Proof.
  intros cls nodes segments rot w width O D c Hc Hn HD HDr HS HO Hr H.
  destruct (C29_width 2 rot true Hr) as (w' & width' & H' & Sw & Ew). rewrite H in H'. injection H' as <- <-.
  destruct (C29_rows 2 rot true w width Hr H) as (_ & Ax & Pl). rewrite Sw in Ax, Pl. cbn [nth] in Ax, Pl.
  set (W := Z.to_nat width) in *. set (feat := feat_of 2 w). set (R0 := Z.to_nat rot) in *.
  assert (HR : (1 <= R0)%nat) by lia. assert (HRp : 0 < INR R0) by (apply lt_0_INR; lia).
  assert (ER : IZR rot = INR R0) by (unfold R0; rewrite INR_IZR_INZ, Z2Nat.id by lia; reflexivity).
  assert (FA : forall i, (i < 2)%nat -> exists p, (p < W)%nat /\ forall v, feat v p = v i).
  { intros i Hi. destruct (Ax i Hi) as (p & Hp & V). exists p. split; auto. intros v. unfold feat, feat_of.
    rewrite (rsum_ext 2 _ (fun k => axis_row i k * v k)) by (intros; rewrite V; ring). now apply rsum_axis. }
  assert (FP : forall p a b, (forall k, at_ w [p; k] = plane_row 0 1 a b k) -> forall v, feat v p = a * v 0%nat + b * v 1%nat).
  { intros p a b V v. unfold feat, feat_of. rewrite <- (rsum_plane 2 0 1 a b v) by lia. apply rsum_ext. intros. rewrite V. ring. }
  set (theta := fun m => PI / 2 * ((INR m - INR (R0 - 1)) / INR R0)). set (t := fun m => tan (theta m)). pose proof PI_RGT_0 as HPI.
  assert (Hth : forall m, (m < 2 * R0 - 1)%nat -> - (PI / 2) < theta m < PI / 2).
  { intros m Hm. unfold theta. assert (A : -1 < (INR m - INR (R0 - 1)) / INR R0 < 1).
    { rewrite minus_INR by lia. pose proof (pos_INR m). assert (INR m <= INR (2 * R0 - 2)) by (apply le_INR; lia).
      rewrite minus_INR, mult_INR in * by lia. cbn [INR] in *. split.
      - apply Rmult_lt_reg_r with (INR R0); auto. unfold Rdiv. rewrite Rmult_assoc, Rinv_l by lra. lra.
      - apply Rmult_lt_reg_r with (INR R0); auto. unfold Rdiv. rewrite Rmult_assoc, Rinv_l by lra. lra. }
    assert (0 < PI / 2) by lra. set (q := (INR m - INR (R0 - 1)) / INR R0) in *. split; nra. }
  assert (Dt : distinct (2 * R0 - 1) t).
  { assert (Lt : forall i j, (i < j)%nat -> (j < 2 * R0 - 1)%nat -> t i < t j).
    { intros i j Hij Hj. pose proof (Hth i ltac:(lia)). pose proof (Hth j ltac:(lia)). apply tan_increasing; [lra| |lra]. unfold theta. apply Rmult_lt_compat_l; [lra|].
      apply Rmult_lt_compat_r; [now apply Rinv_0_lt_compat|]. apply lt_INR in Hij. lra. }
    intros i j Hi Hj Hij. destruct (lt_eq_lt_dec i j) as [[L|L]|L]; [|congruence|]; [pose proof (Lt i j L Hj)|pose proof (Lt j i L Hi)]; lra. }
  (* every direction is one of the features, up to a factor *)
  assert (FD : forall m, (m < 2 * R0 - 1)%nat -> exists p a, (p < W)%nat /\ a <> 0 /\ forall v, feat v p = a * (v 0%nat + t m * v 1%nat)).
  { intros m Hm. pose proof (Hth m Hm) as T. assert (Cm : 0 < cos (theta m)) by (apply cos_gt_0; lra).
    destruct (lt_eq_lt_dec m (R0 - 1)) as [[L|L]|L].
    - (* orthogonal axes *) destruct (Pl 0%nat 1%nat (m + 1)%nat ltac:(lia) ltac:(lia)) as (_ & q & _ & Hq & _ & Vq).
      assert (Ea : angle rot (m + 1) = theta m + PI / 2).
      { unfold angle, theta. rewrite ER, plus_INR, minus_INR by lia. cbn [INR]. field. lra. }
      rewrite Ea in Vq. pose proof (abs_cs_pos (theta m + PI / 2)) as Hs. unfold row_scale in Vq. set (s := / (Rabs (cos (theta m + PI / 2)) + Rabs (sin (theta m + PI / 2)))) in *.
      assert (Hs' : 0 < s) by now apply Rinv_0_lt_compat.
      assert (E1 : sin (theta m + PI / 2) = cos (theta m)) by (rewrite cos_sin; f_equal; lra).
      assert (E2 : cos (theta m + PI / 2) = - sin (theta m)) by (rewrite sin_cos; rewrite Ropp_involutive; f_equal; lra).
      exists q, (s * cos (theta m)). split; auto. split; [nra|]. intros v. rewrite (FP q _ _ Vq). rewrite E1, E2. unfold t, tan. field. lra.
    - destruct (FA 0%nat ltac:(lia)) as (p & Hp & V). exists p, 1. split; auto. split; [lra|]. intros v. rewrite V.
      assert (E0 : t m = 0). { unfold t, theta. rewrite L. unfold Rminus. rewrite Rplus_opp_r. unfold Rdiv. rewrite Rmult_0_l, Rmult_0_r. apply tan_0. }
      rewrite E0. ring.
    - destruct (Pl 0%nat 1%nat (m - (R0 - 1))%nat ltac:(lia) ltac:(lia)) as (p & _ & Hp & _ & Vp & _).
      assert (Ea : angle rot (m - (R0 - 1)) = theta m) by (unfold angle, theta; rewrite ER, minus_INR by lia; reflexivity).
      rewrite Ea in Vp. pose proof (abs_cs_pos (theta m)) as Hs. unfold row_scale in Vp. set (s := / (Rabs (cos (theta m)) + Rabs (sin (theta m)))) in *.
      assert (Hs' : 0 < s) by now apply Rinv_0_lt_compat.
      exists p, (s * cos (theta m)). split; auto. split; [nra|]. intros v. rewrite (FP p _ _ Vp). unfold t, tan. field. lra. }
  assert (HW : (1 <= W)%nat) by (destruct (FA 0%nat ltac:(lia)) as (p & Hp & _); lia).
  destruct (ridge_layer cls nodes segments 2 rot w width O (fun o v => bipoly D (c o) (v 0%nat) (v 1%nat)) Hc Hn HS HO Hr H HW) as (l & Hl); [|exists l; exact Hl].
  fold feat W. unfold bipoly. apply (ridge_sum nodes W feat (S D) (fun k o v => rsum (S k) (fun j => c o k j * (v 0%nat ^ (k - j) * v 1%nat ^ j)))).
  intros k Hk. apply (ridge_sum nodes W feat (S k) (fun j o v => c o k j * (v 0%nat ^ (k - j) * v 1%nat ^ j))). intros j Hj.
  apply (ridge_scal nodes W feat (fun o => c o k j)). apply (ridge_monomials nodes W feat k t); [|intros m Hm| |lia].
  - intros i i' Hi Hi'. apply Dt; lia.
  - destruct (FD m ltac:(lia)) as (p & a & Hp & Ha & V).
    apply (ridge_ext nodes W feat (fun _ v => (fun x => / a ^ k * x ^ k) (feat v p))).
    + intros _ v. rewrite V, Rpow_mult_distr. field. now apply pow_nonzero.
    + apply (ridge_one nodes W feat p (fun x => / a ^ k * x ^ k)); auto. apply poly_lt_scal. apply (poly_lt_mono (S k) nodes); [lia|]. apply poly_lt_pow.
  - destruct (FA 1%nat ltac:(lia)) as (p & Hp & V).
    apply (ridge_ext nodes W feat (fun _ v => (fun x => x ^ k) (feat v p))); [intros; now rewrite V|].
    apply (ridge_one nodes W feat p (fun x => x ^ k)); auto. apply (poly_lt_mono (S k) nodes); [lia|]. apply poly_lt_pow.
Qed.
Print Assumptions C117_bivariate.

(** With one rotation the layer passes its inputs on, and no layer of sum units behind it computes a product of inputs. *)
Lemma features_one v : features 1 v = v.
Proof. induction v; cbn; auto. rewrite IHv. replace (flat_map (pair_features 1 a) v) with (@nil R); auto. clear. induction v; auto. Qed.
Theorem C117_one_rotation : forall n w width l o i j, fixed_rotation_layer n 1 true = Ok (w, width) ->
  held l -> sum_class (pw_cls l) -> pw_in l = Z.to_nat width -> (o < pw_out l)%nat -> (i < j < n)%nat ->
  (forall x B, shape x = [B; n] -> exists y, linear_forward w x = Ok y /\ shape y = [B; n] /\
     forall b p, (b < B)%nat -> (p < n)%nat -> at_ y [b; p] = at_ x [b; p]) /\
  ~ forall x y z, shape x = [1; n]%nat -> (forall i, (i < n)%nat -> -1 <= at_ x [0%nat; i] <= 1) ->
      linear_forward w x = Ok y -> Piecewise_forward l y = Ok z -> at_ z [0%nat; o] = at_ x [0%nat; i] * at_ x [0%nat; j].
Proof.
  intros n w width l o i j H Hl Hc Hi Ho Hij.
  assert (P : forall x B, shape x = [B; n] -> exists y, linear_forward w x = Ok y /\ shape y = [B; n] /\
     forall b p, (b < B)%nat -> (p < n)%nat -> at_ y [b; p] = at_ x [b; p]).
  { intros x B Sx. destruct (C117_features n 1 w width x B ltac:(lia) H Sx) as (y & Ey & Sy & Vy).
    assert (Ew : Z.to_nat width = n).
    { destruct (C29_width n 1 true ltac:(lia)) as (w' & width' & H' & _ & Ew). rewrite H in H'. injection H' as _ <-. lia. }
    rewrite Ew in *. exists y. split; [exact Ey|]. split; [exact Sy|]. intros b p Hb Hp. destruct (Vy b Hb) as (_ & ->); auto.
    change (Z.to_nat 1) with 1%nat. rewrite features_one. unfold sample.
    rewrite (nth_indep _ 0 (at_ x [b; 0%nat])) by (now rewrite map_length, seq_length).
    rewrite (map_nth (fun i => at_ x [b; i])). now rewrite seq_nth. }
  assert (Ew : Z.to_nat width = n).
  { destruct (C29_width n 1 true ltac:(lia)) as (w' & width' & H' & _ & Ew). rewrite H in H'. injection H' as _ <-. lia. }
  rewrite Ew in Hi. split; [exact P|]. intros C.
  assert (D : forall a b, -1 <= a <= 1 -> -1 <= b <= 1 -> layer_out l (set_entry (set_entry (fun _ => 0) i a) j b) o = a * b).
  { intros a b Ha Hb. set (v := set_entry (set_entry (fun _ => 0) i a) j b).
    destruct (P (one_sample n v) 1%nat eq_refl) as (y & Ey & Sy & Vy).
    destruct (forward_rows l y 1 Hl) as (z & Ez & Sz & Vz); [now rewrite Hi|].
    specialize (C (one_sample n v) y z eq_refl). rewrite Vz in C by lia.
    assert (E : layer_out l (row y 0) o = layer_out l v o).
    { rewrite !layer_out_sum by auto. apply rsum_ext. intros k Hk. f_equal. unfold row. rewrite Vy by lia. reflexivity. }
    assert (Hv : forall k, (k < n)%nat -> -1 <= at_ (one_sample n v) [0%nat; k] <= 1).
    { intros k Hk. cbn [one_sample at_ nth]. unfold v, set_entry. destruct (Nat.eqb k j); [exact Hb|]. destruct (Nat.eqb k i); [exact Ha|]. lra. }
    specialize (C Hv Ey Ez). rewrite E in C. rewrite C.
    cbn [one_sample at_ nth]. unfold v, set_entry. rewrite (Nat.eqb_refl j), (Nat.eqb_refl i). destruct (Nat.eqb_spec i j); [lia|]. reflexivity. }
  pose proof (C82_no_interaction l o (fun _ => 0) i j 1 1 0 0 Hl Hc Ho ltac:(lia) ltac:(lia) ltac:(lia)) as N.
  rewrite !D in N by lra. lra.
Qed.
Print Assumptions C117_one_rotation.

(** The degree is sharp: behind [rot] rotations no layer of sum units, whatever its nodes, segments and weights, computes every polynomial
    of degree 2 rot.  It cannot compute this power of a feature halfway between two neighbouring ones, (cos t x + sin t y)^(2 rot)
    with t a quarter of pi/rot.  Iterated differences along the 2 rot directions that leave one feature unchanged vanish for
    everything such a layer computes, but not for this power. *)
Fixpoint differences (us : list (R * R)) (F : R -> R -> R) (x y : R) : R :=
  match us with [] => F x y | u :: us => differences us F (x + fst u) (y + snd u) - differences us F x y end.
Lemma differences_sum us : forall n (F : nat -> R -> R -> R) x y,
  differences us (fun x y => rsum n (fun p => F p x y)) x y = rsum n (fun p => differences us (F p) x y).
Proof. induction us; intros; cbn [differences]; [reflexivity|]. now rewrite !IHus, <- rsum_minus. Qed.
Lemma differences_zero us u F : In u us -> (forall x y, F (x + fst u) (y + snd u) = F x y) -> forall x y, differences us F x y = 0.
Proof.
  intros Hin HF. assert (I : forall us x y, differences us F (x + fst u) (y + snd u) = differences us F x y).
  { induction us0 as [|a us0 IH]; intros x y; cbn [differences]; [apply HF|].
    replace (x + fst u + fst a) with (x + fst a + fst u) by ring. replace (y + snd u + snd a) with (y + snd a + snd u) by ring. now rewrite !IH. }
  induction us as [|a us IH]; [destruct Hin|]. intros x y. cbn [differences]. destruct Hin as [->|Hin].
  - rewrite I. ring.
  - rewrite !IH by auto. ring.
Qed.
Lemma differences_near us F G h : (forall u, In u us -> Rabs (fst u) <= h /\ Rabs (snd u) <= h) ->
  (forall x y, -1 <= x <= 1 -> -1 <= y <= 1 -> F x y = G x y) ->
  forall x y, 0 <= h -> Rabs x + INR (length us) * h <= 1 -> Rabs y + INR (length us) * h <= 1 -> differences us F x y = differences us G x y.
Proof.
  intros Hu E. induction us as [|u us IH]; intros x y Hh Hx Hy; cbn [differences].
  - cbn in Hx, Hy. apply E; apply Rabs_def2b; lra.
  - cbn [length] in Hx, Hy. rewrite S_INR in Hx, Hy. destruct (Hu u (or_introl eq_refl)) as (H1 & H2).
    pose proof (Rabs_triang x (fst u)). pose proof (Rabs_triang y (snd u)).
    rewrite !IH; auto; try lra; intros v Hv; apply Hu; now right.
Qed.
Lemma pow_step h k : exists r, poly_lt k r /\ forall x, (x + h) ^ S k - x ^ S k = INR (S k) * h * x ^ k + r x.
Proof.
  induction k as [|k (r & Hr & E)].
  - exists (fun _ => 0). split; [apply poly_lt_zero|]. intros x. cbn. ring.
  - exists (fun x => INR (S k) * (h * h) * x ^ k + r x * (1 * x + h)). split.
    + apply poly_lt_plus; [apply poly_lt_scal, poly_lt_pow|now apply poly_lt_mul_affine].
    + intros x. change ((x + h) ^ S (S k)) with ((x + h) * (x + h) ^ S k).
      replace ((x + h) ^ S k) with (x ^ S k + (INR (S k) * h * x ^ k + r x)) by (rewrite <- E; ring).
      rewrite (S_INR (S k)). cbn [pow]. ring.
Qed.
Lemma poly_step k h q : poly_lt (S k) q -> poly_lt k (fun x => q (x + h) - q x).
Proof.
  intros (c & Hc). apply (poly_lt_ext k (fun x => rsum (S k) (fun i => c i * ((x + h) ^ i - x ^ i)))).
  - intros x. rewrite !Hc, <- rsum_minus. apply rsum_ext. intros. ring.
  - apply poly_lt_rsum. intros i Hi. apply poly_lt_scal. destruct i as [|i].
    + apply (poly_lt_ext k (fun _ => 0)); [intros; cbn; ring|apply poly_lt_zero].
    + destruct (pow_step h i) as (r & Hr & E). apply (poly_lt_ext k (fun x => INR (S i) * h * x ^ i + r x)); [intros; now rewrite E|].
      apply (poly_lt_mono (S i) k); [lia|]. apply poly_lt_plus; [apply poly_lt_scal, poly_lt_pow|]. now apply (poly_lt_mono i (S i)); [lia|].
Qed.
Lemma differences_ext us F G : (forall x y, F x y = G x y) -> forall x y, differences us F x y = differences us G x y.
Proof. intros E. induction us; intros; cbn [differences]; [apply E|]. now rewrite !IHus. Qed.
Lemma differences_inner us F a b : forall x y, differences us F (x + a) (y + b) - differences us F x y = differences us (fun x y => F (x + a) (y + b) - F x y) x y.
Proof.
  induction us as [|u us IH]; intros x y; cbn [differences]; [reflexivity|].
  rewrite <- !IH. replace (x + a + fst u) with (x + fst u + a) by ring. replace (y + b + snd u) with (y + snd u + b) by ring. ring.
Qed.
Lemma differences_power al be us : (forall u, In u us -> al * fst u + be * snd u <> 0) ->
  forall c q x y, c <> 0 -> poly_lt (length us) q ->
  differences us (fun x y => c * (al * x + be * y) ^ length us + q (al * x + be * y)) x y <> 0.
Proof.
  induction us as [|u us IH]; intros Hu c q x y Hc Hq.
  - destruct Hq as (cc & Hq). cbn. rewrite Hq. cbn. lra.
  - cbn [differences length]. rewrite differences_inner. set (h := al * fst u + be * snd u).
    destruct (pow_step h (length us)) as (r & Hr & E).
    rewrite (differences_ext us _ (fun x y => (c * (INR (S (length us)) * h)) * (al * x + be * y) ^ length us
       + (fun z => c * r z + (q (z + h) - q z)) (al * x + be * y))).
    + apply (IH ltac:(intros v Hv; apply Hu; now right) (c * (INR (S (length us)) * h)) (fun z => c * r z + (q (z + h) - q z)) x y).
      * assert (h <> 0) by (apply Hu; now left). assert (INR (S (length us)) <> 0) by (apply not_0_INR; lia).
        repeat (apply Rmult_integral_contrapositive_currified; [assumption|]). assumption.
      * apply (poly_lt_plus (length us) (fun z => c * r z)); [now apply poly_lt_scal|now apply poly_step].
    + intros x' y'. cbn beta. replace (al * (x' + fst u) + be * (y' + snd u)) with (al * x' + be * y' + h) by (unfold h; ring).
      set (z := al * x' + be * y'). replace ((z + h) ^ S (length us)) with (z ^ S (length us) + (INR (S (length us)) * h * z ^ length us + r z)) by (rewrite <- E; ring).
      ring.
Qed.

Theorem C117_degree_bound : forall rot w width l o, (1 <= rot)%Z -> fixed_rotation_layer 2 rot true = Ok (w, width) ->
  held l -> sum_class (pw_cls l) -> pw_in l = Z.to_nat width -> (o < pw_out l)%nat ->
  let t := PI / 4 / IZR rot in
  ~ forall x y z, shape x = [1; 2]%nat -> (forall i, (i < 2)%nat -> -1 <= at_ x [0%nat; i] <= 1) ->
      linear_forward w x = Ok y -> Piecewise_forward l y = Ok z ->
      at_ z [0%nat; o] = (cos t * at_ x [0; 0]%nat + sin t * at_ x [0; 1]%nat) ^ (2 * Z.to_nat rot).
Proof.
  intros rot w width l o Hr H Hl Hc Hi Ho t C.
  destruct (C29_width 2 rot true Hr) as (w' & width' & H' & Sw & Ew). rewrite H in H'. injection H' as <- <-.
  destruct (C29_rows 2 rot true w width Hr H) as (Rw & _ & _). rewrite Sw in Rw. cbn [nth] in Rw.
  assert (EW : Z.to_nat width = (2 * Z.to_nat rot)%nat) by lia. set (K := Z.to_nat width) in *.
  assert (HK : (1 <= K)%nat) by lia. assert (HKp : 0 < INR K) by (apply lt_0_INR; lia).
  set (h := / INR K). assert (Hh : 0 < h) by now apply Rinv_0_lt_compat.
  set (us := map (fun p => (at_ w [p; 1%nat] * h, - at_ w [p; 0%nat] * h)) (seq 0 K)).
  assert (Lus : length us = K) by (unfold us; now rewrite map_length, seq_length).
  assert (HR : 1 <= IZR rot) by (apply IZR_le in Hr; lra). pose proof PI_RGT_0 as HPI.
  assert (Ht : 0 < t <= PI / 4).
  { unfold t. split; [apply Rdiv_lt_0_compat; lra|]. apply Rmult_le_reg_r with (IZR rot); [lra|]. unfold Rdiv at 1. rewrite Rmult_assoc, Rinv_l by lra. nra. }
  assert (Cs : 0 < cos t /\ 0 < sin t) by (split; [apply cos_gt_0|apply sin_gt_0]; lra).
  (* no feature points in the direction t *)
  assert (Nz : forall u, In u us -> cos t * fst u + sin t * snd u <> 0).
  { intros u Hu. apply in_map_iff in Hu as (p & <- & Hp). apply in_seq in Hp. cbn [fst snd].
    destruct (Rw p ltac:(lia)) as [(i & Hi2 & V)|(i & j & r & Hij & Hr2 & V)].
    - rewrite !V. unfold axis_row. destruct i as [|[|i]]; cbn [Nat.eqb]; [nra|nra|lia].
    - cbv zeta in V. set (a := angle rot r) in *. pose proof (abs_cs_pos a) as Ha. unfold row_scale in V.
      set (s := / (Rabs (cos a) + Rabs (sin a))) in *. assert (Hs : 0 < s) by now apply Rinv_0_lt_compat.
      assert (Ea : 0 < a - t < PI / 2).
      { unfold a, t, angle. replace (PI / 2 * (INR r / IZR rot) - PI / 4 / IZR rot) with (PI / 4 * ((2 * INR r - 1) / IZR rot)) by (field; lra).
        assert (1 <= INR r) by (apply (le_INR 1); lia).
        assert (INR r + 1 <= IZR rot). { rewrite <- S_INR, INR_IZR_INZ. apply IZR_le. lia. }
        assert (A : 0 < (2 * INR r - 1) / IZR rot < 2).
        { split; [apply Rdiv_lt_0_compat; lra|]. apply Rmult_lt_reg_r with (IZR rot); [lra|]. unfold Rdiv. rewrite Rmult_assoc, Rinv_l by lra. lra. }
        split; nra. }
      assert (S1 : 0 < sin (a - t)) by (apply sin_gt_0; lra). assert (C1 : 0 < cos (a - t)) by (apply cos_gt_0; lra).
      rewrite sin_minus in S1. rewrite cos_minus in C1. assert (i = 0%nat /\ j = 1%nat) as (-> & ->) by lia.
      assert (Hsh : 0 < s * h) by now apply Rmult_lt_0_compat.
      destruct V as [V|V]; rewrite !V; unfold plane_row; cbn [Nat.eqb].
      + replace (cos t * (s * sin a * h) + sin t * (- (s * cos a) * h)) with (s * h * (sin a * cos t - cos a * sin t)) by ring. nra.
      + replace (cos t * (s * - cos a * h) + sin t * (- (s * sin a) * h)) with (- (s * h * (cos a * cos t + sin a * sin t))) by ring. nra. }
  assert (Bd : forall u, In u us -> Rabs (fst u) <= h /\ Rabs (snd u) <= h).
  { intros u Hu. apply in_map_iff in Hu as (p & <- & Hp). apply in_seq in Hp. cbn [fst snd].
    destruct (C29_row_norms 2 rot w width p Hr) as (N & _). specialize (N H). rewrite Sw in N. cbn [nth] in N. specialize (N ltac:(lia)).
    cbn [rsum] in N. rewrite !Rabs_mult, Rabs_Ropp, (Rabs_right h) by lra.
    pose proof (Rabs_pos (at_ w [p; 0%nat])). pose proof (Rabs_pos (at_ w [p; 1%nat])). split; nra. }
  set (F := fun x y => layer_out l (fun p => at_ w [p; 0%nat] * x + at_ w [p; 1%nat] * y) o).
  assert (D : forall x y, -1 <= x <= 1 -> -1 <= y <= 1 -> F x y = (cos t * x + sin t * y) ^ K).
  { intros x y Hx Hy. set (v := fun i => match i with O => x | _ => y end).
    destruct (C117_features 2 rot w width (one_sample 2 v) 1 Hr H eq_refl) as (fy & Ey & Sy & _). fold K in Sy.
    destruct (forward_rows l fy 1 Hl) as (z & Ez & Sz & Vz); [now rewrite Hi|].
    specialize (C (one_sample 2 v) fy z eq_refl). rewrite Vz in C by lia.
    assert (E : layer_out l (row fy 0) o = F x y).
    { unfold F. rewrite !layer_out_sum by auto. apply rsum_ext. intros k Hk. f_equal. unfold linear_forward in Ey.
      rewrite Sw in Ey. cbn [one_sample shape nth Nat.eqb] in Ey. injection Ey as <-. unfold row. cbn [at_ nth rsum one_sample v]. ring. }
    assert (Hv : forall i, (i < 2)%nat -> -1 <= at_ (one_sample 2 v) [0%nat; i] <= 1).
    { intros i Hi2. destruct i as [|[|i]]; cbn [one_sample at_ nth v]; [exact Hx|exact Hy|lia]. }
    specialize (C Hv Ey Ez). rewrite E in C. rewrite C, EW. reflexivity. }
  assert (Z0 : differences us F 0 0 = 0).
  { unfold F. rewrite (differences_ext us _ (fun x y => rsum K (fun p => link l o p (at_ w [p; 0%nat] * x + at_ w [p; 1%nat] * y)))).
    - rewrite (differences_sum us K (fun p x y => link l o p (at_ w [p; 0%nat] * x + at_ w [p; 1%nat] * y))). apply rsum_zero. intros p Hp.
      apply (differences_zero us (at_ w [p; 1%nat] * h, - at_ w [p; 0%nat] * h)).
      + unfold us. apply (in_map (fun p => (at_ w [p; 1%nat] * h, - at_ w [p; 0%nat] * h))). apply in_seq. lia.
      + intros x y. cbn [fst snd]. f_equal. ring.
    - intros x y. rewrite layer_out_sum by auto. rewrite Hi. reflexivity. }
  assert (Q : differences us F 0 0 = differences us (fun x y => 1 * (cos t * x + sin t * y) ^ length us + (fun _ => 0) (cos t * x + sin t * y)) 0 0).
  { apply (differences_near us F _ h Bd); try (rewrite Rabs_R0, Lus; unfold h; rewrite Rinv_r by lra; lra); [|lra].
    intros x y Hx Hy. cbn beta. rewrite Lus, D by auto. ring. }
  rewrite Z0 in Q. symmetry in Q. revert Q. apply (differences_power (cos t) (sin t) us Nz 1 (fun _ => 0) 0 0); [lra|]. apply poly_lt_zero.
Qed.
Print Assumptions C117_degree_bound.

(** Two inputs, two rotations: x, (x+y)/2, (x-y)/2, y as the docstring has it (in another order). *)
Example C117_docstring_case : forall x y, features 2 [x; y] = [x; (x + y) / 2; (x - y) / 2; y].
Proof.
  intros x y. cbn [features flat_map app pair_features seq Nat.sub]. unfold pair_features. cbn [seq flat_map app Nat.sub].
  replace (PI / 2 * (INR 1 / INR 2)) with (PI / 4) by (cbn; field). rewrite cos_PI4, sin_PI4.
  assert (0 < sqrt 2) by (apply sqrt_lt_R0; lra). assert (0 < 1 / sqrt 2) by (apply Rdiv_lt_0_compat; lra). rewrite Rabs_right by lra.
  f_equal. f_equal; [field; lra|]. f_equal. field. lra.
Qed.
Example C117_case :
  let a := mkMLP "discontinuous" (Int 3) 2 5 4 7 2 None None None true None None
             (Some (Int 1)) (Some (Int 2)) (Some (Int 3)) None true None "constant_random" 0 in
  exists net k o h2, transform_mlp (fun k _ => INR k) a 3 [] = Ok (net, h2 ++ [o]) /\ on_features (h2 ++ [o]) net k 2 3.
Proof.
  cbv zeta. match goal with |- context [transform_mlp _ ?a' _] => set (a := a') end.
  destruct (C117_transform_mlp (fun k _ => INR k) a 3 []) as (net & k & o & o' & h2 & E & _ & F); try reflexivity; try lia.
  - intros i Hi. cbn in Hi. lia.
  - unfold a. constructor; cbn; try lra; try lia; try discriminate.
    + right. right. split; [cbn; tauto|]. exists 3%nat, 1%nat. auto with arith.
    + right. right. right. split; [cbn; tauto|]. exists 3%nat, 3%nat. auto with arith.
    + right. right. split; [cbn; tauto|]. exists 3%nat, 2%nat. auto with arith.
  - exists net, k, o, h2. split; [exact E|exact F].
Qed.
Example C117_product_case : exists w l, fixed_rotation_layer 2 2 true = Ok (w, 4%Z) /\ held l /\ pw_n l = 3%nat /\
  forall x, shape x = [1; 2]%nat -> (forall i, (i < 2)%nat -> -1 <= at_ x [0%nat; i] <= 1) ->
  exists y z, linear_forward w x = Ok y /\ Piecewise_forward l y = Ok z /\ at_ z [0; 0]%nat = at_ x [0; 0]%nat * at_ x [0; 1]%nat.
Proof.
  destruct (C29_width 2 2 true ltac:(lia)) as (w & width & H & _ & Ew). cbn in Ew. subst width.
  destruct (C117_quadratic PiecewisePolynomial 3 1 2 2 w 4 1 (fun _ => 0) (fun _ _ => 0) (fun _ i j => if (Nat.eqb i 0 && Nat.eqb j 1)%bool then 1 else 0))
    as (l & Hl & _ & Hn & _ & _ & _ & P); auto; try lia; [now left|].
  exists w, l. split; [exact H|]. split; auto. split; auto. intros x Sx Hx.
  destruct (P x 1%nat Sx) as (y & z & Ey & Ez & _ & Vz); [intros b i Hb Hi; replace b with 0%nat by lia; now apply Hx|].
  exists y, z. split; auto. split; auto. rewrite Vz by lia. unfold quadratic, row. cbn. ring.
Qed.
(** Two rotations and four nodes: a cubic polynomial in two inputs, here x^2 y + y^3 / 2. *)
Example C117_cubic_case : exists w l, fixed_rotation_layer 2 2 true = Ok (w, 4%Z) /\ held l /\ pw_n l = 4%nat /\
  forall x, shape x = [1; 2]%nat -> (forall i, (i < 2)%nat -> -1 <= at_ x [0%nat; i] <= 1) ->
  exists y z, linear_forward w x = Ok y /\ Piecewise_forward l y = Ok z /\
    at_ z [0; 0]%nat = at_ x [0; 0]%nat ^ 2 * at_ x [0; 1]%nat + at_ x [0; 1]%nat ^ 3 / 2.
Proof.
  destruct (C29_width 2 2 true ltac:(lia)) as (w & width & H & _ & Ew). cbn in Ew. subst width.
  destruct (C117_bivariate PiecewisePolynomial 4 1 2 w 4 1 3
              (fun _ k j => if (Nat.eqb k 3 && Nat.eqb j 1)%bool then 1 else if (Nat.eqb k 3 && Nat.eqb j 3)%bool then 1 / 2 else 0))
    as (l & Hl & _ & Hn & _ & _ & _ & P); auto; try lia; [now left|].
  exists w, l. split; [exact H|]. split; auto. split; auto. intros x Sx Hx.
  destruct (P x 1%nat Sx) as (y & z & Ey & Ez & _ & Vz); [intros b i Hb Hi; replace b with 0%nat by lia; now apply Hx|].
  exists y, z. split; auto. split; auto. rewrite Vz by lia. unfold bipoly. cbn. lra.
Qed.
(** Two rotations and nine nodes in three segments: such layers exist, and none is the fourth power of the feature at pi/8. *)
Example C117_degree_bound_case : exists w l, fixed_rotation_layer 2 2 true = Ok (w, 4%Z) /\ held l /\ pw_n l = 9%nat /\ pw_segments l = 3%nat /\
  exists x y z, shape x = [1; 2]%nat /\ (forall i, (i < 2)%nat -> -1 <= at_ x [0%nat; i] <= 1) /\ linear_forward w x = Ok y /\ Piecewise_forward l y = Ok z /\
    at_ z [0; 0]%nat <> (cos (PI / 4 / 2) * at_ x [0; 0]%nat + sin (PI / 4 / 2) * at_ x [0; 1]%nat) ^ 4.
Proof.
  destruct (C29_width 2 2 true ltac:(lia)) as (w & width & H & _ & Ew). cbn in Ew. subst width.
  destruct (C117_bivariate PiecewiseDiscontinuousPolynomial 9 3 2 w 4 1 3 (fun _ _ _ => 1)) as (l & Hl & Hc & Hn & Hsg & Hin & Hout & P); auto; try lia; [now right|].
  exists w, l. do 4 (split; [assumption|]). apply Classical_Prop.NNPP. intros N.
  apply (C117_degree_bound 2 w 4 l 0 ltac:(lia) H Hl); [rewrite Hc; now right|exact Hin|lia|].
  intros x y z Sx Hx Ey Ez. apply Classical_Prop.NNPP. intros D. apply N. exists x, y, z. auto.
Qed.
