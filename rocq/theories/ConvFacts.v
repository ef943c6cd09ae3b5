(** * Convolutions: from the tensor program to a formula per output entry. *)
From Coq Require Import Reals ZArith List Lia Lra Psatz Bool.
From Verif Require Import Spec Tensor Utils LagrangePolynomial Basis PolynomialLayers Expand Convolution Observe ObserveConv
  SumFacts TensorFacts LagrangeFacts LayerFacts SegmentFacts LayerProofs ExpandFacts.
Import ListNotations.
Local Open Scope R_scope.

Lemma rsum_window V s n f : (s + n <= V)%nat ->
  rsum V (fun v => if (Nat.leb s v && Nat.ltb v (s + n))%bool then f (v - s)%nat else 0) = rsum n f.
Proof.
  intros H. replace V with (s + (n + (V - s - n)))%nat by lia. rewrite !rsum_add.
  rewrite (rsum_zero s), (rsum_zero (V - s - n)), Rplus_0_l, Rplus_0_r.
  - apply rsum_ext. intros i Hi. destruct (Nat.leb_spec s (s + i)); [|lia].
    destruct (Nat.ltb_spec (s + i) (s + n)); [|lia]. cbn [andb]. f_equal. lia.
  - intros i Hi. destruct (Nat.leb_spec s (s + (n + i))); [|lia]. destruct (Nat.ltb_spec (s + (n + i)) (s + n)); [lia|]. reflexivity.
  - intros i Hi. destruct (Nat.leb_spec s i); [lia|]. reflexivity.
Qed.

(** Basis value [v] of the expansion of one number, and the number of them. *)
Definition ev (x : expansion) (t : R) (v : nat) : R :=
  match x with BasisExpand n b => call b t v | Piecewise_ e => expand_value e t v end.
Definition ev_n (x : expansion) : nat := match x with BasisExpand n b => n | Piecewise_ e => e_variables e end.
Definition ev_ok (x : expansion) (rank : nat) : Prop :=
  match x with
  | BasisExpand n b => (1 <= n)%nat
  | Piecewise_ e => (1 <= e_n e)%nat /\ (1 <= e_segments e)%nat /\ rank = e_rank e
  end.

Lemma expansion_call_spec x t : ev_ok x (length (shape t)) ->
  exists y, expansion_call x t = Ok y /\ shape y = ev_n x :: shape t /\
   forall v ix, (v < ev_n x)%nat -> valid (shape t) ix -> at_ y (v :: ix) = ev x (at_ t ix) v.
Proof.
  destruct x as [n b|e]; cbn [ev_ok ev_n ev expansion_call].
  - intros H. unfold stack_basis. destruct (Nat.eqb_spec n 0); [lia|]. eexists; split; [reflexivity|]. split; [reflexivity|].
    intros v ix Hv Hix. reflexivity.
  - intros (H1 & H2 & H3). now apply expand_call_spec.
Qed.

Lemma Expansion2d_spec x t B C H W : shape t = [B; C; H; W] -> ev_ok x 4 ->
  exists y, Expansion2d x t = Ok y /\ shape y = [B; (C * ev_n x)%nat; H; W] /\
  forall b c v h w, (b < B)%nat -> (c < C)%nat -> (v < ev_n x)%nat -> (h < H)%nat -> (w < W)%nat ->
    at_ y [b; (c * ev_n x + v)%nat; h; w] = ev x (at_ t [b; c; h; w]) v.
Proof.
  intros Ht Hok. destruct (expansion_call_spec x t) as (y & E & Sh & V); [now rewrite Ht|].
  unfold Expansion2d. rewrite E. cbn [rbind]. rewrite Sh, Ht. set (nb := ev_n x) in *.
  set (P := permute [1; 3; 4; 2; 0]%nat y).
  assert (SP : shape P = [B; H; W; C; nb]) by (unfold P; cbn [permute shape]; rewrite Sh, Ht; reflexivity).
  unfold reshape. assert (N : numel P = prodn [B; H; W; (C * nb)%nat]) by (unfold numel; rewrite SP; cbn; ring).
  rewrite N, Nat.eqb_refl. cbn [rbind]. eexists; split; [reflexivity|]. split; [reflexivity|].
  intros b c v h w Hb Hc Hv Hh Hw. cbn [permute at_ shape map seq length nth index_of Nat.eqb].
  rewrite SP.
  replace (ravel [B; H; W; (C * nb)%nat] [b; h; w; (c * nb + v)%nat]) with (ravel [B; H; W; C; nb] [b; h; w; c; v]) by (cbn; ring).
  rewrite unravel_ravel by (cbn; tauto). unfold P. cbn [permute at_]. rewrite Sh, Ht.
  cbn [length seq map nth index_of Nat.eqb]. apply V; auto. rewrite Ht. cbn. tauto.
Qed.

Lemma Expansion1d_spec x t B C W : shape t = [B; C; W] -> ev_ok x 3 ->
  exists y, Expansion1d x t = Ok y /\ shape y = [B; (C * ev_n x)%nat; W] /\
  forall b c v w, (b < B)%nat -> (c < C)%nat -> (v < ev_n x)%nat -> (w < W)%nat ->
    at_ y [b; (c * ev_n x + v)%nat; w] = ev x (at_ t [b; c; w]) v.
Proof.
  intros Ht Hok. destruct (expansion_call_spec x t) as (y & E & Sh & V); [now rewrite Ht|].
  unfold Expansion1d. rewrite E. cbn [rbind]. rewrite Sh, Ht. set (nb := ev_n x) in *.
  set (P := permute [1; 3; 2; 0]%nat y).
  assert (SP : shape P = [B; W; C; nb]) by (unfold P; cbn [permute shape]; rewrite Sh, Ht; reflexivity).
  unfold reshape. assert (N : numel P = prodn [B; W; (C * nb)%nat]) by (unfold numel; rewrite SP; cbn; ring).
  rewrite N, Nat.eqb_refl. cbn [rbind]. eexists; split; [reflexivity|]. split; [reflexivity|].
  intros b c v w Hb Hc Hv Hw. cbn [permute at_ shape map seq length nth index_of Nat.eqb].
  rewrite SP.
  replace (ravel [B; W; (C * nb)%nat] [b; w; (c * nb + v)%nat]) with (ravel [B; W; C; nb] [b; w; c; v]) by (cbn; ring).
  rewrite unravel_ravel by (cbn; tauto). unfold P. cbn [permute at_]. rewrite Sh, Ht.
  cbn [length seq map nth index_of Nat.eqb]. apply V; auto. rewrite Ht. cbn. tauto.
Qed.

(** ** The expansion of a piecewise family against the layer of the same family *)

Lemma ev_window c n S len x (w : nat -> R) : (1 <= n)%nat -> (1 <= S)%nat ->
  let e := mkExpand c (lb_basis (get_lagrange_basis n len)) n S len in
  rsum (e_variables e) (fun v => w v * expand_value e x v)
  = interp n len (fun k => w (eseg e x * e_stride e + k)%nat) (expand_x_in e x (expand_index e x)).
Proof.
  intros Hn HS e. unfold expand_value.
  set (s := (eseg e x * e_stride e)%nat).
  assert (L : (s + n <= e_variables e)%nat).
  { pose proof (e_index_lt e (eseg e x) (n - 1) Hn ltac:(now apply eseg_lt)). cbn [e_n e] in H. unfold s. lia. }
  unfold interp. rewrite <- (rsum_window (e_variables e) s n (fun k => lag n len k (expand_x_in e x (expand_index e x)) * w (s + k)%nat)) by auto.
  apply rsum_ext. intros v Hv. cbn [e_n e e_basis].
  destruct (Nat.leb_spec s v); cbn [andb]; [|ring]. destruct (Nat.ltb_spec v (s + n)); [|ring].
  unfold lag. replace (s + (v - s))%nat with v by lia. ring.
Qed.

Lemma expand_seg c n S len per x w b : (1 <= S)%nat ->
  eseg (mkExpand c b n S len) x = seg (pw_link (fc_class c) n S len per w) x /\
  expand_index (mkExpand c b n S len) x = segment_index (pw_link (fc_class c) n S len per w) x /\
  expand_x_in (mkExpand c b n S len) x = x_local (pw_link (fc_class c) n S len per w) x.
Proof.
  intros HS. assert (E : expand_index (mkExpand c b n S len) x = segment_index (pw_link (fc_class c) n S len per w) x).
  { rewrite expand_index_clamp by auto. reflexivity. }
  split; [|split; [exact E|reflexivity]]. unfold eseg, seg. now rewrite E.
Qed.

Lemma pw_link_held c n S len per w : (1 <= n)%nat -> (1 <= S)%nat -> held (pw_link c n S len per w).
Proof. intros Hn HS. unfold pw_link. apply with_w_held; [apply new_held; lia|reflexivity]. Qed.

Lemma pw_link_out c n S len per w x : (1 <= n)%nat -> (1 <= S)%nat -> sum_class c ->
  layer_out (pw_link c n S len per w) (fun _ => x) 0 = link (pw_link c n S len per w) 0 0 x.
Proof.
  intros Hn HS Hc. rewrite layer_out_eq; [|now apply pw_link_held|cbn; lia].
  change (pw_cls (pw_link c n S len per w)) with c. rewrite alpha_sum by auto. cbn [combine_links pw_link pw_in with_w new_piecewise rsum]. ring.
Qed.

Lemma expand_is_link c n S per x w : (1 <= n)%nat -> (1 <= S)%nat ->
  let e := mkExpand c (lb_basis (get_lagrange_basis n 2)) n S 2 in
  rsum (e_variables e) (fun v => w v * expand_value e (apply_periodicity per x) v)
  = layer_out (pw_link (fc_class c) n S 2 per w) (fun _ => x) 0.
Proof.
  intros Hn HS e. rewrite pw_link_out; auto; [|destruct c; [left|left|right|right]; reflexivity].
  unfold e. rewrite ev_window by auto. unfold link, link0, piece. cbv zeta.
  change (pw_periodicity (pw_link (fc_class c) n S 2 per w)) with per.
  set (t := apply_periodicity per x). clearbody t. 
  destruct (expand_seg c n S 2 per t w (lb_basis (get_lagrange_basis n 2)) HS) as (E1 & E2 & E3).
  rewrite E1, E2, E3. rewrite seg_Z by (cbn; auto). change (pw_n (pw_link (fc_class c) n S 2 per w)) with n.
  apply interp_ext. intros k Hk. unfold seg_weight. unfold pw_link. cbn [pw_w with_w at_ nth]. f_equal. f_equal. f_equal.
  unfold e_stride, e_continuous, pw_stride. destruct c; reflexivity.
Qed.

(** ** Convolution layers *)

Lemma conv_expansion_ok k two_d n S len : (1 <= n)%nat -> (1 <= S)%nat ->
  ev_ok (conv_expansion k two_d n S len) (if two_d then 4 else 3) /\
  ev_n (conv_expansion k two_d n S len) = conv_nb k n S.
Proof. intros Hn HS. destruct k, two_d; cbn; auto. Qed.

Lemma func_out_eq n b p w x : (1 <= n)%nat -> shape w = [1; 1; n]%nat ->
  func_out (mkFunc n b p w) x = rsum n (fun v => at_ w [0; 0; v]%nat * call b (apply_periodicity p x) v).
Proof.
  intros Hn Hw. unfold func_out.
  destruct (function_spec n b p w (one_sample 1 (fun _ => x)) 1 1 1 Hn Hw eq_refl) as (y & -> & _ & V).
  cbn [value_at]. rewrite V by lia. cbn [rsum one_sample at_]. rewrite Rplus_0_l. apply rsum_ext. intros; ring.
Qed.

Lemma conv_link_eq k two_d n S len per w x : (1 <= n)%nat -> (1 <= S)%nat ->
  match k with PiecewiseConv | PiecewiseDiscontinuousConv => len = 2 | _ => True end ->
  (k = FourierConv -> per = None) ->
  rsum (conv_nb k n S) (fun v => w v * ev (conv_expansion k two_d n S len) (apply_periodicity per x) v)
  = conv_link k n S len per w x.
Proof.
  intros Hn HS HL HP. unfold conv_link. destruct k.
  - rewrite (HP eq_refl). unfold with_fw. cbn [f_n f_basis f_periodicity FourierSeries]. rewrite func_out_eq by auto. reflexivity.
  - unfold with_fw. cbn [f_n f_basis f_periodicity Polynomial]. rewrite func_out_eq by auto. reflexivity.
  - subst len. destruct two_d; cbn [conv_expansion PiecewisePolynomialExpand ev conv_nb].
    + apply (expand_is_link PiecewiseExpand); auto.
    + apply (expand_is_link PiecewiseExpand1d); auto.
  - subst len. destruct two_d; cbn [conv_expansion PiecewisePolynomialExpand ev conv_nb].
    + apply (expand_is_link PiecewiseDiscontinuousExpand); auto.
    + apply (expand_is_link PiecewiseDiscontinuousExpand1d); auto.
Qed.

(** Expansions add up to one, for any length. *)
Lemma ev_sum k two_d n S len x : (1 <= n)%nat -> (1 <= S)%nat -> len <> 0 -> k <> FourierConv ->
  rsum (conv_nb k n S) (fun v => ev (conv_expansion k two_d n S len) x v) = 1.
Proof.
  intros Hn HS HL HF.
  assert (P : forall c, rsum (e_variables (mkExpand c (lb_basis (get_lagrange_basis n len)) n S len))
     (fun v => expand_value (mkExpand c (lb_basis (get_lagrange_basis n len)) n S len) x v) = 1).
  { intros c. rewrite (rsum_ext _ _ (fun v => 1 * expand_value (mkExpand c (lb_basis (get_lagrange_basis n len)) n S len) x v)) by (intros; ring).
    rewrite (ev_window c n S len x (fun _ => 1)) by auto. now apply interp_const. }
  destruct k; [contradiction| | |].
  - apply lag_partition; auto.
  - destruct two_d; [apply (P PiecewiseExpand)|apply (P PiecewiseExpand1d)].
  - destruct two_d; [apply (P PiecewiseDiscontinuousExpand)|apply (P PiecewiseDiscontinuousExpand1d)].
Qed.

Lemma padded_ext H p y f g : (forall z, (z < H)%nat -> f z = g z) -> padded H p y f = padded H p y g.
Proof. intros E. unfold padded. destruct (Nat.leb p y); cbn [andb]; auto. destruct (Nat.ltb_spec (y - p) H); auto. Qed.
Lemma padded_scal H p y a f : a * padded H p y f = padded H p y (fun z => a * f z).
Proof. unfold padded. destruct (_ && _)%bool; auto. ring. Qed.
Lemma padded_rsum H p y n (f : nat -> nat -> R) :
  rsum n (fun v => padded H p y (fun z => f v z)) = padded H p y (fun z => rsum n (fun v => f v z)).
Proof. unfold padded. destruct (_ && _)%bool; auto. apply rsum_0. Qed.

Definition conv2d_value (l : conv) (H W : nat) (x : tensor R) (b o y z : nat) : R :=
  let nb := conv_nb (cv_kind l) (cv_n l) (cv_segments l) in
  cv_rescale l * rsum (cv_in l) (fun c => rsum (cv_kernel l) (fun i => rsum (cv_kernel l) (fun j =>
    padded H (cv_padding l) (y * cv_stride l + i * cv_dilation l) (fun h =>
      padded W (cv_padding l) (z * cv_stride l + j * cv_dilation l) (fun w =>
        rsum nb (fun v => at_ (cv_w l) [o; (c * nb + v)%nat; i; j] *
          ev (conv_expansion (cv_kind l) true (cv_n l) (cv_segments l) (cv_length l)) (apply_periodicity (cv_periodicity l) (at_ x [b; c; h; w])) v)))))).

Lemma conv2d_forward_value l x B H W H' W' :
  let nb := conv_nb (cv_kind l) (cv_n l) (cv_segments l) in
  (1 <= cv_n l)%nat -> (1 <= cv_segments l)%nat ->
  shape (cv_w l) = [cv_out l; (nb * cv_in l)%nat; cv_kernel l; cv_kernel l] -> shape x = [B; cv_in l; H; W] ->
  conv_size H (cv_kernel l) (cv_stride l) (cv_padding l) (cv_dilation l) = Some H' ->
  conv_size W (cv_kernel l) (cv_stride l) (cv_padding l) (cv_dilation l) = Some W' ->
  exists y, conv2d_forward l x = Ok y /\ shape y = [B; cv_out l; H'; W'] /\
  forall b o p q, (b < B)%nat -> at_ y [b; o; p; q] = conv2d_value l H W x b o p q.
Proof.
  intros nb Hn HS Hw Hx HH HW. unfold conv2d_forward.
  destruct (conv_expansion_ok (cv_kind l) true (cv_n l) (cv_segments l) (cv_length l) Hn HS) as [Ok1 Nb].
  set (xp := conv_expansion _ true _ _ _) in *. fold nb in Nb.
  destruct (Expansion2d_spec xp (tmap (apply_periodicity (cv_periodicity l)) x) B (cv_in l) H W) as (t & Et & St & Vt); auto.
  cbv zeta. rewrite Et. cbn [rbind]. rewrite Nb in *. unfold conv2d. rewrite Hw, St.
  rewrite (Nat.mul_comm nb), Nat.eqb_refl, HH, HW. cbn [rbind]. eexists; split; [reflexivity|]. split; [reflexivity|].
  intros b o p q Hb. cbn [tmap at_]. rewrite Rmult_comm. unfold conv2d_value. f_equal. fold nb.
  rewrite rsum_mul. apply rsum_ext. intros c Hc. rewrite rsum_swap. apply rsum_ext. intros i Hi.
  rewrite rsum_swap. apply rsum_ext. intros j Hj.
  rewrite (rsum_ext nb _ (fun v => padded H (cv_padding l) (p * cv_stride l + i * cv_dilation l) (fun h =>
     padded W (cv_padding l) (q * cv_stride l + j * cv_dilation l) (fun w =>
       at_ (cv_w l) [o; (c * nb + v)%nat; i; j] * ev xp (apply_periodicity (cv_periodicity l) (at_ x [b; c; h; w])) v)))).
  - rewrite padded_rsum. apply padded_ext. intros h Hh. now rewrite padded_rsum.
  - intros v Hv. rewrite padded_scal. apply padded_ext. intros h Hh. rewrite padded_scal. apply padded_ext. intros w Hw'.
    now rewrite Vt.
Qed.

Definition conv1d_value (l : conv) (H : nat) (x : tensor R) (b o y : nat) : R :=
  let nb := conv_nb (cv_kind l) (cv_n l) (cv_segments l) in
  cv_rescale l * rsum (cv_in l) (fun c => rsum (cv_kernel l) (fun i =>
    padded H (cv_padding l) (y * cv_stride l + i * cv_dilation l) (fun h =>
        rsum nb (fun v => at_ (cv_w l) [o; (c * nb + v)%nat; i] *
          ev (conv_expansion (cv_kind l) false (cv_n l) (cv_segments l) (cv_length l)) (apply_periodicity (cv_periodicity l) (at_ x [b; c; h])) v)))).

Lemma conv1d_forward_value l x B H H' :
  let nb := conv_nb (cv_kind l) (cv_n l) (cv_segments l) in
  (1 <= cv_n l)%nat -> (1 <= cv_segments l)%nat ->
  shape (cv_w l) = [cv_out l; (nb * cv_in l)%nat; cv_kernel l] -> shape x = [B; cv_in l; H] ->
  conv_size H (cv_kernel l) (cv_stride l) (cv_padding l) (cv_dilation l) = Some H' ->
  exists y, conv1d_forward l x = Ok y /\ shape y = [B; cv_out l; H'] /\
  forall b o p, (b < B)%nat -> at_ y [b; o; p] = conv1d_value l H x b o p.
Proof.
  intros nb Hn HS Hw Hx HH. unfold conv1d_forward.
  destruct (conv_expansion_ok (cv_kind l) false (cv_n l) (cv_segments l) (cv_length l) Hn HS) as [Ok1 Nb].
  set (xp := conv_expansion _ false _ _ _) in *. fold nb in Nb.
  destruct (Expansion1d_spec xp (tmap (apply_periodicity (cv_periodicity l)) x) B (cv_in l) H) as (t & Et & St & Vt); auto.
  cbv zeta. rewrite Et. cbn [rbind]. rewrite Nb in *. unfold conv1d. rewrite Hw, St.
  rewrite (Nat.mul_comm nb), Nat.eqb_refl, HH. cbn [rbind]. eexists; split; [reflexivity|]. split; [reflexivity|].
  intros b o p Hb. cbn [tmap at_]. rewrite Rmult_comm. unfold conv1d_value. f_equal. fold nb.
  rewrite rsum_mul. apply rsum_ext. intros c Hc. rewrite rsum_swap. apply rsum_ext. intros i Hi.
  rewrite (rsum_ext nb _ (fun v => padded H (cv_padding l) (p * cv_stride l + i * cv_dilation l) (fun h =>
       at_ (cv_w l) [o; (c * nb + v)%nat; i] * ev xp (apply_periodicity (cv_periodicity l) (at_ x [b; c; h])) v))).
  - now rewrite padded_rsum.
  - intros v Hv. rewrite padded_scal. apply padded_ext. intros h Hh. now rewrite Vt.
Qed.

(** Transposed convolution. *)
Definition conv_transpose_value (l : conv) (H W : nat) (x : tensor R) (b o y' z' : nat) : R :=
  let nb := conv_nb (cv_kind l) (cv_n l) (cv_segments l) in
  cv_rescale l * rsum (cv_in l) (fun c => rsum H (fun y => rsum W (fun z => rsum (cv_kernel l) (fun i => rsum (cv_kernel l) (fun j =>
    if (Nat.eqb (y * cv_stride l + i * cv_dilation l) (y' + cv_padding l) &&
        Nat.eqb (z * cv_stride l + j * cv_dilation l) (z' + cv_padding l))%bool
    then rsum nb (fun v => at_ (cv_w l) [(c * nb + v)%nat; o; i; j] *
          ev (conv_expansion (cv_kind l) true (cv_n l) (cv_segments l) (cv_length l)) (apply_periodicity (cv_periodicity l) (at_ x [b; c; y; z])) v)
    else 0))))).

Lemma conv_transpose_forward_value l op x B H W H' W' :
  let nb := conv_nb (cv_kind l) (cv_n l) (cv_segments l) in
  (1 <= cv_n l)%nat -> (1 <= cv_segments l)%nat ->
  shape (cv_w l) = [(nb * cv_in l)%nat; cv_out l; cv_kernel l; cv_kernel l] -> shape x = [B; cv_in l; H; W] ->
  conv_transpose_size H (cv_kernel l) (cv_stride l) (cv_padding l) op (cv_dilation l) = Some H' ->
  conv_transpose_size W (cv_kernel l) (cv_stride l) (cv_padding l) op (cv_dilation l) = Some W' ->
  exists y, conv_transpose2d_forward (mkConvT l op) x = Ok y /\ shape y = [B; cv_out l; H'; W'] /\
  forall b o p q, (b < B)%nat -> at_ y [b; o; p; q] = conv_transpose_value l H W x b o p q.
Proof.
  intros nb Hn HS Hw Hx HH HW. unfold conv_transpose2d_forward. cbn [ct_conv ct_output_padding].
  destruct (conv_expansion_ok (cv_kind l) true (cv_n l) (cv_segments l) (cv_length l) Hn HS) as [Ok1 Nb].
  set (xp := conv_expansion _ true _ _ _) in *. fold nb in Nb.
  destruct (Expansion2d_spec xp (tmap (apply_periodicity (cv_periodicity l)) x) B (cv_in l) H W) as (t & Et & St & Vt); auto.
  cbv zeta. rewrite Et. cbn [rbind]. rewrite Nb in *. unfold conv_transpose2d. rewrite Hw, St.
  rewrite (Nat.mul_comm nb), Nat.eqb_refl, HH, HW. cbn [rbind]. eexists; split; [reflexivity|]. split; [reflexivity|].
  intros b o p q Hb. cbn [tmap at_]. rewrite Rmult_comm. unfold conv_transpose_value. f_equal. fold nb.
  rewrite rsum_mul. apply rsum_ext. intros c Hc. rewrite rsum_swap. apply rsum_ext. intros y Hy.
  rewrite rsum_swap. apply rsum_ext. intros z Hz. rewrite rsum_swap. apply rsum_ext. intros i Hi.
  rewrite rsum_swap. apply rsum_ext. intros j Hj. destruct (_ && _)%bool; [|apply rsum_0].
  apply rsum_ext. intros v Hv. rewrite Vt by auto. rewrite Rmult_comm. reflexivity.
Qed.

(** Constant initialisation. *)
Lemma constant_conv2d w0 nb O C k mag draw : (1 <= nb)%nat ->
  exists w, constant_random_initialization_conv2d w0 nb O (nb * C) k k mag draw = Ok w /\
   shape w = [O; (nb * C)%nat; k; k] /\
   forall o c v i j, (o < O)%nat -> (c < C)%nat -> (v < nb)%nat -> (i < k)%nat -> (j < k)%nat ->
     at_ w [o; (c * nb + v)%nat; i; j] = draw [o; c; i; j] * mag / INR (C * k * k).
Proof.
  intros Hnb. unfold constant_random_initialization_conv2d. destruct (Nat.eqb_spec nb 0); [lia|].
  assert (D : (nb * C / nb = C)%nat) by (rewrite Nat.mul_comm; apply Nat.div_mul; lia).
  assert (D' : (k * k * (nb * C) / nb = C * k * k)%nat).
  { replace (k * k * (nb * C))%nat with (C * k * k * nb)%nat by ring. apply Nat.div_mul. lia. }
  cbv zeta. rewrite D, D'. set (P := permute _ _).
  assert (SP : shape P = [O; C; nb; k; k]) by reflexivity.
  unfold reshape. assert (N : numel P = prodn [O; (nb * C)%nat; k; k]) by (unfold numel; rewrite SP; cbn; ring).
  rewrite N, Nat.eqb_refl. eexists; split; [reflexivity|]. split; [reflexivity|].
  intros o c v i j Ho Hc Hv Hi Hj. cbn [at_]. rewrite SP.
  replace (ravel [O; (nb * C)%nat; k; k] [o; (c * nb + v)%nat; i; j]) with (ravel [O; C; nb; k; k] [o; c; v; i; j]) by (cbn; ring).
  rewrite unravel_ravel by (cbn; tauto). reflexivity.
Qed.

Lemma conv_nb_pos k n S : (1 <= n)%nat -> (1 <= S)%nat -> (1 <= conv_nb k n S)%nat.
Proof. intros. destruct k; cbn; try lia; nia. Qed.

(** What the constructors build. *)
Definition conv_of (k : conv_kind) (a : conv_args) (w : tensor R) : conv :=
  mkConv k (a_n a) (a_segments a) (a_length a) (a_in a) (a_out a) (a_kernel a) (a_stride a) (a_padding a)
    (a_dilation a) (conv_per k a) (rescale_of a) w.

Lemma new_conv2d_spec k a u draw : good_args a ->
  exists w, new_conv2d k a u draw = Ok (conv_of k a w) /\
   shape w = [a_out a; (conv_nb k (a_n a) (a_segments a) * a_in a)%nat; a_kernel a; a_kernel a] /\
   (k <> FourierConv -> forall o c v i j, (o < a_out a)%nat -> (c < a_in a)%nat -> (v < conv_nb k (a_n a) (a_segments a))%nat ->
      (i < a_kernel a)%nat -> (j < a_kernel a)%nat ->
      at_ w [o; (c * conv_nb k (a_n a) (a_segments a) + v)%nat; i; j] = draw [o; c; i; j] * a_weight_magnitude a / INR (a_in a * a_kernel a * a_kernel a)).
Proof.
  intros (G1 & G2 & G3 & G4 & G5 & G6 & G7). unfold new_conv2d. pose proof (conv_nb_pos k _ _ G1 G2) as P.
  destruct k; [eexists; split; [reflexivity|]; split; [reflexivity|]; contradiction| | |];
  (match goal with |- context[constant_random_initialization_conv2d ?w0 ?nb ?O _ ?k _ ?m ?d] =>
     destruct (constant_conv2d w0 nb O (a_in a) k m d P) as (w & E & Sh & V) end;
   cbv zeta; rewrite E; cbn [rbind]; exists w; split; [reflexivity|]; split; [exact Sh|]; intros _; exact V).
Qed.

Lemma held_conv2d_eq k a l : good_args a -> held_conv2d k a l ->
  exists w, l = conv_of k a w /\ shape w = [a_out a; (conv_nb k (a_n a) (a_segments a) * a_in a)%nat; a_kernel a; a_kernel a].
Proof.
  intros G (u & draw & l0 & w & E & Sh & ->). destruct (new_conv2d_spec k a u draw G) as (w' & E' & Sh' & _).
  rewrite E in E'. injection E' as ->. exists w. split; [reflexivity|]. cbn in Sh. congruence.
Qed.

Lemma held_conv1d_eq k a l : held_conv1d k a l ->
  k <> FourierConv /\ exists w, l = conv_of k a w /\ shape w = [a_out a; (conv_nb k (a_n a) (a_segments a) * a_in a)%nat; a_kernel a].
Proof.
  intros (u & l0 & w & E & Sh & ->). unfold new_conv1d in E.
  destruct k; [discriminate| | |]; injection E as <-; (split; [discriminate|]; exists w; split; [reflexivity|exact Sh]).
Qed.

Lemma fits_size a H : good_args a -> fits a H ->
  conv_size H (a_kernel a) (a_stride a) (a_padding a) (a_dilation a) = Some (positions a H).
Proof.
  intros (_ & _ & _ & _ & _ & G6 & _) F. unfold fits in F. unfold conv_size, positions.
  destruct (Nat.eqb_spec (a_stride a) 0); [lia|]. destruct (Nat.leb_spec (a_dilation a * (a_kernel a - 1) + 1) (H + 2 * a_padding a)); [|lia].
  do 3 f_equal. lia.
Qed.
Lemma not_fits_size a H : ~ fits a H -> conv_size H (a_kernel a) (a_stride a) (a_padding a) (a_dilation a) = None.
Proof.
  intros F. unfold fits in F. unfold conv_size. destruct (Nat.eqb (a_stride a) 0); auto.
  destruct (Nat.leb_spec (a_dilation a * (a_kernel a - 1) + 1) (H + 2 * a_padding a)); [lia|auto].
Qed.
Lemma padded_reads a H y i f : padded H (a_padding a) (y * a_stride a + i * a_dilation a) f = if reads a H y i then f (row_read a y i) else 0.
Proof.
  unfold padded, reads, row_read. set (z := (y * a_stride a + i * a_dilation a)%nat).
  destruct (Nat.leb_spec (a_padding a) z); cbn [andb]; auto.
  destruct (Nat.ltb_spec (z - a_padding a) H), (Nat.ltb_spec z (a_padding a + H)); auto; lia.
Qed.

