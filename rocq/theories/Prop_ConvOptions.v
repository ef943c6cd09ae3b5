(** * Convolutions with groups and padding modes (C101, C102). *)
From Coq Require Import Reals ZArith List Lia Lra Psatz Bool.
From Verif Require Import Spec Tensor Utils LagrangePolynomial Basis PolynomialLayers Expand Convolution Layers ConvOptions
  Observe ObserveConv SumFacts TensorFacts LagrangeFacts LayerFacts SegmentFacts LayerProofs ExpandFacts ConvFacts AttentionFacts Prop_Conv.
Import ListNotations.
Local Open Scope R_scope.

(** ** Observations *)

(** Layers a user can hold: built by a constructor, then given any weights. *)
Definition held_opt2d (k : conv_kind) (a : conv_args) (g : nat) (m : padding_mode) (l : conv_opt) : Prop :=
  exists u draw l0 w, new_conv2d_opt k a g m u draw = Ok l0 /\ shape w = shape (cv_w (ot_conv l0)) /\ l = opt_with_w l0 w.
Definition held_opt1d (k : conv_kind) (a : conv_args) (g : nat) (m : padding_mode) (l : conv_opt) : Prop :=
  exists u l0 w, new_conv1d_opt k a g m u = Ok l0 /\ shape w = shape (cv_w (ot_conv l0)) /\ l = opt_with_w l0 w.

(** The row of an image of [H] rows found at the position [t] of the padded image ([0] is the first row of the image,
    negative positions lie before it); None where there is no pixel.  Reflection is at the first and the last row. *)
Definition row_at (m : padding_mode) (H : nat) (t : Z) : option nat :=
  let last := (Z.of_nat H - 1)%Z in
  match m with
  | Zeros => if (Z.leb 0 t && Z.leb t last)%bool then Some (Z.to_nat t) else None
  | Replicate => Some (Z.to_nat (Z.max 0 (Z.min last t)))
  | Circular => Some (Z.to_nat (t mod Z.of_nat H))
  | Reflect => Some (Z.to_nat (last - Z.abs (last - Z.abs t)))
  end.
(** How far an image of [H] rows can be padded. *)
Definition can_pad (m : padding_mode) (H p : nat) : Prop :=
  match m with
  | Zeros => True
  | Reflect => (p < H)%nat
  | Replicate => (1 <= H)%nat
  | Circular => (1 <= H)%nat /\ (p <= H)%nat
  end.
(** What a kernel sees at offset [i] of output position [y]. *)
Definition seen (a : conv_args) (m : padding_mode) (H y i : nat) : option nat :=
  row_at m H (Z.of_nat (y * a_stride a + i * a_dilation a) - Z.of_nat (a_padding a)).
Definition on2 (r s : option nat) (f : nat -> nat -> R) : R :=
  match r, s with Some h, Some w => f h w | _, _ => 0 end.
Definition on1 (r : option nat) (f : nat -> R) : R := match r with Some h => f h | None => 0 end.

(** Same outcome of two calls: equal tensors or the same error. *)
Definition same_result (r r' : res (tensor R)) : Prop :=
  match r, r' with Ok y, Ok y' => teq y y' | Err e, Err e' => e = e' | _, _ => False end.

(** ** Facts *)

Lemma pad_ok_iff m H p : pad_ok m H p = true <-> can_pad m H p.
Proof.
  destruct m; cbn [pad_ok can_pad]; rewrite ?andb_true_iff, ?Nat.ltb_lt, ?Nat.leb_le; try tauto; try (split; auto; lia).
Qed.

Lemma source_row m H p y : m <> Zeros -> can_pad m H p -> (y < H + 2 * p)%nat ->
  row_at m H (Z.of_nat y - Z.of_nat p) = Some (pad_source m H p y) /\ (pad_source m H p y < H)%nat.
Proof.
  intros NZ C L. destruct m; [contradiction| | |]; cbn [row_at pad_source can_pad] in *.
  - destruct (Nat.ltb_spec y p); [|destruct (Nat.ltb_spec (y - p) H)]; (split; [f_equal|]; lia).
  - split; [f_equal|]; lia.
  - destruct C as [C1 C2]. split; [|apply Nat.mod_upper_bound; lia]. f_equal.
    rewrite <- (Nat2Z.id ((y + H - p) mod H)). f_equal. rewrite Nat2Z.inj_mod.
    replace (Z.of_nat (y + H - p)) with (Z.of_nat y - Z.of_nat p + 1 * Z.of_nat H)%Z by lia. now rewrite Z.mod_add by lia.
Qed.

Lemma padded_row H p y f : padded H p y f = on1 (row_at Zeros H (Z.of_nat y - Z.of_nat p)) f.
Proof.
  unfold padded, row_at. destruct (Nat.leb_spec p y), (Nat.ltb_spec (y - p) H),
    (Z.leb_spec 0 (Z.of_nat y - Z.of_nat p)), (Z.leb_spec (Z.of_nat y - Z.of_nat p) (Z.of_nat H - 1)); cbn [andb on1]; try lia; auto.
  f_equal. lia.
Qed.
Lemma padded_none H y f : (y < H)%nat -> padded H 0 y f = f y.
Proof. intros L. unfold padded. rewrite Nat.sub_0_r. destruct (Nat.ltb_spec y H); [reflexivity|lia]. Qed.

Lemma conv_size_padded H k s p d : conv_size (H + 2 * p) k s 0 d = conv_size H k s p d.
Proof. unfold conv_size. now rewrite Nat.mul_0_r, Nat.add_0_r. Qed.

Lemma Some_inj (x y : nat) : Some x = Some y -> x = y.
Proof. congruence. Qed.
Lemma position_inside H k s p d H' y i : (1 <= k)%nat -> conv_size H k s p d = Some H' -> (y < H')%nat -> (i < k)%nat ->
  (y * s + i * d < H + 2 * p)%nat.
Proof.
  unfold conv_size. intros Hk E Hy Hi. destruct (Nat.eqb_spec s 0); [discriminate|].
  destruct (Nat.leb_spec (d * (k - 1) + 1) (H + 2 * p)); [|discriminate]. apply Some_inj in E. subst H'.
  assert (y * s <= H + 2 * p - (d * (k - 1) + 1))%nat.
  { apply Nat.le_trans with ((H + 2 * p - (d * (k - 1) + 1)) / s * s)%nat; [apply Nat.mul_le_mono_r; lia|].
    rewrite Nat.mul_comm. apply Nat.mul_div_le. lia. }
  assert (i * d <= d * (k - 1))%nat by (rewrite Nat.mul_comm; apply Nat.mul_le_mono_l; lia). lia.
Qed.

Lemma group_inside g Co C o c : (1 <= g)%nat -> (Co mod g = 0)%nat -> (o < Co)%nat -> (c < C)%nat ->
  (o / (Co / g) * C + c < C * g)%nat.
Proof.
  intros Hg D Ho Hc. apply Nat.div_exact in D; [|lia]. set (q := (Co / g)%nat) in *.
  assert (1 <= q)%nat by nia. assert (o / q < g)%nat by (apply Nat.div_lt_upper_bound; nia). nia.
Qed.

Lemma Conv2d_forward_value g m w s p d t Co C k B C' H W H' W' :
  shape w = [Co; C; k; k] -> shape t = [B; C'; H; W] -> (C * g = C')%nat -> (1 <= g)%nat -> (1 <= k)%nat -> (Co mod g = 0)%nat ->
  conv_size H k s p d = Some H' -> conv_size W k s p d = Some W' -> can_pad m H p -> can_pad m W p ->
  exists y, Conv2d_forward g m w s p d t = Ok y /\ shape y = [B; Co; H'; W'] /\
  forall b o y1 y2, (y1 < H')%nat -> (y2 < W')%nat ->
    at_ y [b; o; y1; y2] = rsum C (fun c => rsum k (fun i => rsum k (fun j =>
      on2 (row_at m H (Z.of_nat (y1 * s + i * d) - Z.of_nat p)) (row_at m W (Z.of_nat (y2 * s + j * d) - Z.of_nat p)) (fun h z =>
        at_ w [o; c; i; j] * at_ t [b; (o / (Co / g) * C + c)%nat; h; z])))).
Proof.
  intros Sw St EC Hg Hk Hm HH HW P1 P2.
  assert (NZ : m <> Zeros -> Conv2d_forward g m w s p d t = (x <- pad2d m p t ;; conv2d_groups g w s 0 d x)) by (destruct m; [contradiction| | |]; reflexivity).
  destruct m eqn:Em.
  1: { cbn [Conv2d_forward]. unfold conv2d_groups. rewrite Sw, St, EC, Nat.eqb_refl, HH, HW.
    eexists; split; [reflexivity|]. split; [reflexivity|]. intros b o y1 y2 L1 L2. cbn [at_].
    apply rsum_ext. intros c Hc. apply rsum_ext. intros i Hi. apply rsum_ext. intros j Hj.
    rewrite padded_row. unfold on2, on1. destruct (row_at Zeros H _); [|ring]. rewrite padded_row. unfold on1.
    destruct (row_at Zeros W _); ring. }
  all: rewrite <- Em in *; rewrite NZ by (rewrite Em; discriminate); unfold pad2d; rewrite St;
    rewrite (proj2 (pad_ok_iff m H p) P1), (proj2 (pad_ok_iff m W p) P2); cbn [andb rbind]; unfold conv2d_groups; cbn [shape at_];
    rewrite Sw, EC, Nat.eqb_refl, !conv_size_padded, HH, HW; eexists; (split; [reflexivity|]); (split; [reflexivity|]);
    intros b o y1 y2 L1 L2; cbn [at_];
    apply rsum_ext; intros c Hc; apply rsum_ext; intros i Hi; apply rsum_ext; intros j Hj;
    pose proof (position_inside H k s p d H' y1 i Hk HH L1 Hi) as I1; pose proof (position_inside W k s p d W' y2 j Hk HW L2 Hj) as I2;
    rewrite !padded_none by assumption;
    destruct (source_row m H p (y1 * s + i * d)) as [-> _]; [rewrite Em; discriminate|assumption|assumption|];
    destruct (source_row m W p (y2 * s + j * d)) as [-> _]; [rewrite Em; discriminate|assumption|assumption|reflexivity].
Qed.

Lemma Conv1d_forward_value g m w s p d t Co C k B C' H H' :
  shape w = [Co; C; k] -> shape t = [B; C'; H] -> (C * g = C')%nat -> (1 <= g)%nat -> (1 <= k)%nat -> (Co mod g = 0)%nat ->
  conv_size H k s p d = Some H' -> can_pad m H p ->
  exists y, Conv1d_forward g m w s p d t = Ok y /\ shape y = [B; Co; H'] /\
  forall b o y1, (y1 < H')%nat ->
    at_ y [b; o; y1] = rsum C (fun c => rsum k (fun i =>
      on1 (row_at m H (Z.of_nat (y1 * s + i * d) - Z.of_nat p)) (fun h =>
        at_ w [o; c; i] * at_ t [b; (o / (Co / g) * C + c)%nat; h]))).
Proof.
  intros Sw St EC Hg Hk Hm HH P1.
  assert (NZ : m <> Zeros -> Conv1d_forward g m w s p d t = (x <- pad1d m p t ;; conv1d_groups g w s 0 d x)) by (destruct m; [contradiction| | |]; reflexivity).
  destruct m eqn:Em.
  1: { cbn [Conv1d_forward]. unfold conv1d_groups. rewrite Sw, St, EC, Nat.eqb_refl, HH.
    eexists; split; [reflexivity|]. split; [reflexivity|]. intros b o y1 L1. cbn [at_].
    apply rsum_ext. intros c Hc. apply rsum_ext. intros i Hi.
    rewrite padded_row. unfold on1. destruct (row_at Zeros H _); ring. }
  all: rewrite <- Em in *; rewrite NZ by (rewrite Em; discriminate); unfold pad1d; rewrite St;
    rewrite (proj2 (pad_ok_iff m H p) P1); cbn [rbind]; unfold conv1d_groups; cbn [shape at_];
    rewrite Sw, EC, Nat.eqb_refl, !conv_size_padded, HH; eexists; (split; [reflexivity|]); (split; [reflexivity|]);
    intros b o y1 L1; cbn [at_];
    apply rsum_ext; intros c Hc; apply rsum_ext; intros i Hi;
    pose proof (position_inside H k s p d H' y1 i Hk HH L1 Hi) as I1;
    rewrite !padded_none by assumption;
    destruct (source_row m H p (y1 * s + i * d)) as [-> _]; [rewrite Em; discriminate|assumption|assumption|reflexivity].
Qed.

Lemma row_at_lt m H t h p : can_pad m H p -> row_at m H t = Some h ->
  (m = Reflect -> (- Z.of_nat H < t < 2 * Z.of_nat H - 1)%Z) -> (h < H)%nat.
Proof.
  intros C E Rf. destruct m; cbn [row_at can_pad] in *.
  - destruct (Z.leb_spec 0 t), (Z.leb_spec t (Z.of_nat H - 1)); cbn [andb] in E; try discriminate. injection E as <-. lia.
  - injection E as <-. specialize (Rf eq_refl). lia.
  - injection E as <-. lia.
  - injection E as <-. assert (0 <= t mod Z.of_nat H < Z.of_nat H)%Z by (apply Z.mod_pos_bound; lia). lia.
Qed.

(** The rows seen by the kernel of an output position are rows of the image. *)
Lemma seen_lt a m H y i h : good_args a -> fits a H -> can_pad m H (a_padding a) -> (y < positions a H)%nat -> (i < a_kernel a)%nat ->
  seen a m H y i = Some h -> (h < H)%nat.
Proof.
  intros G F C Hy Hi E. pose proof (fits_size a H G F) as Sz. assert (K : (1 <= a_kernel a)%nat) by apply G.
  pose proof (position_inside _ _ _ _ _ _ y i K Sz Hy Hi) as I.
  apply (row_at_lt m H _ h _ C E). intros ->. cbn in C. lia.
Qed.

(** ** What the constructors build *)
Lemma check_groups_ok g C O : check_groups g C O = Ok tt <-> (1 <= g)%nat /\ (C mod g = 0)%nat /\ (O mod g = 0)%nat.
Proof.
  unfold check_groups. destruct (Nat.eqb_spec g 0); [split; [discriminate|lia]|].
  destruct (Nat.eqb_spec (C mod g) 0); cbn [negb]; [|split; [discriminate|tauto]].
  destruct (Nat.eqb_spec (O mod g) 0); cbn [negb]; [|split; [discriminate|tauto]]. split; [lia|reflexivity].
Qed.
Lemma check_groups_err g C O : check_groups g C O <> Ok tt -> check_groups g C O = Err ValueError.
Proof. unfold check_groups. destruct (Nat.eqb g 0), (Nat.eqb (C mod g) 0), (Nat.eqb (O mod g) 0); cbn; congruence. Qed.

Lemma bsize_same x : bsize x x = Some x.
Proof. unfold bsize. now rewrite Nat.eqb_refl. Qed.
Lemma bshape_refl s : bshape s s = Some s.
Proof.
  unfold bshape. assert (E : forall r, bshape_rev r r = Some r).
  { induction r as [|x r IH]; cbn -[bsize]; [reflexivity|]. now rewrite bsize_same, IH. }
  now rewrite E, rev_involutive.
Qed.
Lemma bindex_refl s ix : valid s ix -> bindex s ix = ix.
Proof.
  intros V. unfold bindex. assert (L : length ix = length s) by (revert ix V; induction s as [|x s IH]; intros [|y ix]; cbn; try tauto; intros [_ V]; f_equal; auto).
  rewrite L, Nat.sub_diag. cbn [skipn]. clear L. revert ix V. induction s as [|x s IH]; intros [|y ix]; cbn; try tauto.
  intros [Hy V]. rewrite IH by assumption. f_equal. unfold bc. destruct (Nat.eqb_spec x 1); [lia|reflexivity].
Qed.
Lemma copy_same w v : shape v = shape w -> exists r, copy_ w v = Ok r /\ teq r v.
Proof.
  intros E. unfold copy_. rewrite E, bshape_refl. destruct (list_eq_dec _ _ _); [|contradiction].
  eexists. split; [reflexivity|]. split; [now rewrite E|]. intros ix V. cbn [at_ shape] in *. now rewrite bindex_refl.
Qed.
Lemma copy_wider w v O C C' k : shape w = [O; C; k; k] -> shape v = [O; C'; k; k] -> C' <> C -> (C' <> 1)%nat -> copy_ w v = Err RuntimeError.
Proof.
  intros Sw Sv N N1. unfold copy_. rewrite Sw, Sv. unfold bshape. cbn -[bsize]. rewrite !bsize_same.
  unfold bsize. destruct (Nat.eqb_spec C' C); [contradiction|]. destruct (Nat.eqb_spec C 1); [|destruct (Nat.eqb_spec C' 1); [contradiction|reflexivity]]. cbn [rev app].
  destruct (list_eq_dec _ _ _) as [E|]; [|reflexivity]. injection E as E. congruence.
Qed.

Lemma nb_mod_pos k a : good_args a -> (1 <= conv_nb k (a_n a) (a_segments a) * a_in a)%nat.
Proof. intros (G1 & G2 & G3 & _). pose proof (conv_nb_pos k _ _ G1 G2). nia. Qed.

Lemma new_conv2d_opt_spec k a g m u draw : good_args a -> k = FourierConv \/ g = 1%nat ->
  check_groups g (conv_nb k (a_n a) (a_segments a) * a_in a) (a_out a) = Ok tt ->
  exists w, new_conv2d_opt k a g m u draw = Ok (mkOpt (conv_of k a w) g m) /\
   shape w = [a_out a; (conv_nb k (a_n a) (a_segments a) * a_in a / g)%nat; a_kernel a; a_kernel a] /\
   (k <> FourierConv -> forall o c v i j, (o < a_out a)%nat -> (c < a_in a)%nat -> (v < conv_nb k (a_n a) (a_segments a))%nat ->
      (i < a_kernel a)%nat -> (j < a_kernel a)%nat ->
      at_ w [o; (c * conv_nb k (a_n a) (a_segments a) + v)%nat; i; j] = draw [o; c; i; j] * a_weight_magnitude a / INR (a_in a * a_kernel a * a_kernel a)).
Proof.
  intros G HK Hg. unfold new_conv2d_opt. rewrite Hg. cbv zeta. cbn [rbind]. pose proof G as (G1 & G2 & G3 & G4 & G5 & G6 & G7).
  pose proof (conv_nb_pos k _ _ G1 G2) as P.
  destruct k eqn:Ek; [eexists; split; [reflexivity|]; split; [reflexivity|]; contradiction| | |].
  all: destruct HK as [HK|Hg1]; [discriminate|]; rewrite Hg1, Nat.div_1_r;
   match goal with |- context[constant_random_initialization_conv2d ?w0 ?nb ?O _ ?k _ ?m ?d] =>
     destruct (constant_conv2d w0 nb O (a_in a) k m d P) as (v & E & Sh & V) end;
   rewrite E; cbn [rbind];
   match goal with |- context[copy_ ?w0 ?vv] => destruct (copy_same w0 vv Sh) as (w & Ew & Tw) end;
   rewrite Ew; cbn [rbind]; exists w; (split; [reflexivity|]); destruct Tw as [Sw Tw]; (split; [congruence|]);
   intros _ o c v' i j Ho Hc Hv Hi Hj; (rewrite Tw; [apply V; assumption|]); rewrite Sw, Sh; cbn -[conv_nb Nat.mul]; repeat split; auto; nia.
Qed.

Lemma held_opt2d_eq k a g m l : good_args a -> held_opt2d k a g m l ->
  (1 <= g)%nat /\ ((conv_nb k (a_n a) (a_segments a) * a_in a) mod g = 0)%nat /\ (a_out a mod g = 0)%nat /\
  exists w, l = mkOpt (conv_of k a w) g m /\ shape w = [a_out a; (conv_nb k (a_n a) (a_segments a) * a_in a / g)%nat; a_kernel a; a_kernel a].
Proof.
  intros G (u & draw & l0 & w & E & Sh & ->). unfold new_conv2d_opt in E. cbv zeta in E.
  destruct (check_groups g _ _) as [[]|] eqn:Ec; [|discriminate]. pose proof (proj1 (check_groups_ok _ _ _) Ec) as (D1 & D2 & D3).
  split; [exact D1|]. split; [exact D2|]. split; [exact D3|]. cbn [rbind] in E.
  destruct k; cbn [rbind] in E.
  - injection E as <-. exists w. split; [reflexivity|exact Sh].
  - destruct (constant_random_initialization_conv2d _ _ _ _ _ _ _ _) as [v|]; [|discriminate]. cbn [rbind] in E.
    unfold copy_ in E. destruct (bshape _ _); [|discriminate]. destruct (list_eq_dec _ _ _); [|discriminate]. injection E as <-. exists w. split; [reflexivity|exact Sh].
  - destruct (constant_random_initialization_conv2d _ _ _ _ _ _ _ _) as [v|]; [|discriminate]. cbn [rbind] in E.
    unfold copy_ in E. destruct (bshape _ _); [|discriminate]. destruct (list_eq_dec _ _ _); [|discriminate]. injection E as <-. exists w. split; [reflexivity|exact Sh].
  - destruct (constant_random_initialization_conv2d _ _ _ _ _ _ _ _) as [v|]; [|discriminate]. cbn [rbind] in E.
    unfold copy_ in E. destruct (bshape _ _); [|discriminate]. destruct (list_eq_dec _ _ _); [|discriminate]. injection E as <-. exists w. split; [reflexivity|exact Sh].
Qed.
Lemma held_opt1d_eq k a g m l : held_opt1d k a g m l ->
  k <> FourierConv /\ (1 <= g)%nat /\ ((conv_nb k (a_n a) (a_segments a) * a_in a) mod g = 0)%nat /\ (a_out a mod g = 0)%nat /\
  exists w, l = mkOpt (conv_of k a w) g m /\ shape w = [a_out a; (conv_nb k (a_n a) (a_segments a) * a_in a / g)%nat; a_kernel a].
Proof.
  intros (u & l0 & w & E & Sh & ->). unfold new_conv1d_opt in E. cbv zeta in E.
  destruct k; [discriminate| | |];
  (destruct (check_groups g _ _) as [[]|] eqn:Ec; [|discriminate]; pose proof (proj1 (check_groups_ok _ _ _) Ec) as (D1 & D2 & D3);
   split; [discriminate|]; split; [exact D1|]; split; [exact D2|]; split; [exact D3|]; cbn [rbind] in E;
   injection E as <-; exists w; split; [reflexivity|exact Sh]).
Qed.

(** A channel of the expanded image. *)
Lemma expanded2d xp t B C H W : shape t = [B; C; H; W] -> ev_ok xp 4 ->
  exists y, Expansion2d xp t = Ok y /\ shape y = [B; (C * ev_n xp)%nat; H; W] /\
  forall b e h w, (b < B)%nat -> (e < C * ev_n xp)%nat -> (h < H)%nat -> (w < W)%nat ->
    at_ y [b; e; h; w] = ev xp (at_ t [b; (e / ev_n xp)%nat; h; w]) (e mod ev_n xp).
Proof.
  intros St Hok. destruct (Expansion2d_spec xp t B C H W St Hok) as (y & E & Sh & V). exists y. split; [exact E|]. split; [exact Sh|].
  intros b e h w Hb He Hh Hw. assert (N : (ev_n xp <> 0)%nat) by (intros Z; rewrite Z in He; lia).
  rewrite <- V; auto; [|apply Nat.div_lt_upper_bound; lia|apply Nat.mod_upper_bound; lia].
  do 2 f_equal. f_equal. rewrite (Nat.div_mod e (ev_n xp)) at 1 by lia. lia.
Qed.
Lemma expanded1d xp t B C H : shape t = [B; C; H] -> ev_ok xp 3 ->
  exists y, Expansion1d xp t = Ok y /\ shape y = [B; (C * ev_n xp)%nat; H] /\
  forall b e h, (b < B)%nat -> (e < C * ev_n xp)%nat -> (h < H)%nat ->
    at_ y [b; e; h] = ev xp (at_ t [b; (e / ev_n xp)%nat; h]) (e mod ev_n xp).
Proof.
  intros St Hok. destruct (Expansion1d_spec xp t B C H St Hok) as (y & E & Sh & V). exists y. split; [exact E|]. split; [exact Sh|].
  intros b e h Hb He Hh. assert (N : (ev_n xp <> 0)%nat) by (intros Z; rewrite Z in He; lia).
  rewrite <- V; auto; [|apply Nat.div_lt_upper_bound; lia|apply Nat.mod_upper_bound; lia].
  do 2 f_equal. f_equal. rewrite (Nat.div_mod e (ev_n xp)) at 1 by lia. lia.
Qed.

(** The value of basis function [v] of the family: the layer whose only nonzero weight is that one. *)
Definition unit_weight (v : nat) : nat -> R := fun j => if Nat.eqb j v then 1 else 0.
Definition basis_value (k : conv_kind) (a : conv_args) (v : nat) (x : R) : R :=
  conv_link k (a_n a) (a_segments a) (a_length a) (conv_per k a) (unit_weight v) x.

Lemma basis_value_eq k a two_d v x : good_args a -> fc_length k a ->
  (v < conv_nb k (a_n a) (a_segments a))%nat ->
  ev (conv_expansion k two_d (a_n a) (a_segments a) (a_length a)) (apply_periodicity (conv_per k a) x) v = basis_value k a v x.
Proof.
  intros (G1 & G2 & _) HL Hv. unfold basis_value.
  rewrite <- (conv_link_eq k two_d (a_n a) (a_segments a) (a_length a) (conv_per k a)); auto; [|intros ->; reflexivity].
  unfold unit_weight. rewrite (rsum_single _ v _ Hv).
  - rewrite Nat.eqb_refl. ring.
  - intros j Hj N. destruct (Nat.eqb_spec j v); [contradiction|ring].
Qed.

(** ** C101 *)

Lemma opt2d_value k a g m l x B H W : good_args a -> held_opt2d k a g m l ->
  shape x = [B; a_in a; H; W] -> fits a H -> fits a W -> can_pad m H (a_padding a) -> can_pad m W (a_padding a) ->
  let nb := conv_nb k (a_n a) (a_segments a) in let per_group := (nb * a_in a / g)%nat in
  exists y, conv2d_opt_forward l x = Ok y /\ shape y = [B; a_out a; positions a H; positions a W] /\
  forall b o p q, (b < B)%nat -> (o < a_out a)%nat -> (p < positions a H)%nat -> (q < positions a W)%nat ->
    at_ y [b; o; p; q] = output_scale a * rsum per_group (fun e => rsum (a_kernel a) (fun i => rsum (a_kernel a) (fun j =>
      on2 (seen a m H p i) (seen a m W q j) (fun h w =>
        at_ (cv_w (ot_conv l)) [o; e; i; j] *
        ev (conv_expansion k true (a_n a) (a_segments a) (a_length a))
          (apply_periodicity (conv_per k a) (at_ x [b; ((o / (a_out a / g) * per_group + e) / nb)%nat; h; w]))
          ((o / (a_out a / g) * per_group + e) mod nb))))).
Proof.
  intros G Hl Hx FH FW PH PW nb per_group.
  destruct (held_opt2d_eq k a g m l G Hl) as (Hg & D & DO & w & -> & Sw). pose proof G as (G1 & G2 & _ & _ & G5 & _).
  fold nb in D, Sw. fold per_group in Sw.
  assert (EC : (per_group * g = a_in a * nb)%nat) by (unfold per_group; apply Nat.div_exact in D; [lia|lia]).
  unfold conv2d_opt_forward. cbn [ot_conv ot_groups ot_mode conv_of cv_kind cv_n cv_segments cv_length cv_periodicity cv_w cv_stride cv_padding cv_dilation cv_rescale]. cbv zeta.
  destruct (conv_expansion_ok k true (a_n a) (a_segments a) (a_length a) G1 G2) as [Ok1 Nb].
  destruct (expanded2d (conv_expansion k true (a_n a) (a_segments a) (a_length a)) (tmap (apply_periodicity (conv_per k a)) x) B (a_in a) H W) as (t & Et & St & Vt); auto.
  rewrite Et. cbn [rbind]. rewrite Nb in *. fold nb in St, Vt.
  destruct (Conv2d_forward_value g m w (a_stride a) (a_padding a) (a_dilation a) t _ _ _ _ _ _ _ (positions a H) (positions a W) Sw St EC Hg G5 DO) as (y & Ey & Sy & Vy);
    auto; try (now apply fits_size).
  rewrite Ey. cbn [rbind]. eexists; split; [reflexivity|]. split; [exact Sy|].
  intros b o p q Hb Ho Hp Hq. cbn [tmap at_]. rewrite Vy by assumption. rewrite Rmult_comm. unfold output_scale. fold (rescale_of a).
  f_equal. apply rsum_ext. intros e He. apply rsum_ext. intros i Hi. apply rsum_ext. intros j Hj.
  fold (seen a m H p i) (seen a m W q j).
  destruct (seen a m H p i) as [h|] eqn:E1; [|reflexivity]. destruct (seen a m W q j) as [z|] eqn:E2; [|reflexivity]. cbn [on2].
  apply seen_lt in E1; auto. apply seen_lt in E2; auto. pose proof (group_inside g (a_out a) per_group o e Hg DO Ho He) as I. rewrite EC in I.
  rewrite Vt by assumption. reflexivity.
Qed.

(** The general form: every expanded channel [f], that is, basis function [f mod nb] of input channel [f / nb], belongs to
    one group, whichever channel it comes from. *)
Theorem C101_conv2d : forall k a g m l x B H W, good_args a -> fc_length k a -> held_opt2d k a g m l ->
  shape x = [B; a_in a; H; W] -> fits a H -> fits a W -> can_pad m H (a_padding a) -> can_pad m W (a_padding a) ->
  let nb := conv_nb k (a_n a) (a_segments a) in let per_group := (nb * a_in a / g)%nat in
  exists y, conv2d_opt_forward l x = Ok y /\ shape y = [B; a_out a; positions a H; positions a W] /\
  forall b o p q, (b < B)%nat -> (o < a_out a)%nat -> (p < positions a H)%nat -> (q < positions a W)%nat ->
    at_ y [b; o; p; q] = output_scale a * rsum per_group (fun e => rsum (a_kernel a) (fun i => rsum (a_kernel a) (fun j =>
      on2 (seen a m H p i) (seen a m W q j) (fun h w =>
        let f := (o / (a_out a / g) * per_group + e)%nat in
        at_ (cv_w (ot_conv l)) [o; e; i; j] * basis_value k a (f mod nb) (at_ x [b; (f / nb)%nat; h; w]))))).
Proof.
  intros k a g m l x B H W G HL Hl Hx FH FW PH PW nb per_group.
  destruct (opt2d_value k a g m l x B H W G Hl Hx FH FW PH PW) as (y & E & Sh & V). exists y. split; [exact E|]. split; [exact Sh|].
  pose proof G as (G1 & G2 & _). pose proof (conv_nb_pos k _ _ G1 G2) as Pnb.
  intros b o p q Hb Ho Hp Hq. rewrite V by assumption. f_equal.
  apply rsum_ext. intros e He. apply rsum_ext. intros i Hi. apply rsum_ext. intros j Hj.
  destruct (seen a m H p i) as [h|]; [|reflexivity]. destruct (seen a m W q j) as [z|]; [|reflexivity]. cbn [on2]. f_equal.
  apply basis_value_eq; auto. apply Nat.mod_upper_bound. lia.
Qed.
Print Assumptions C101_conv2d.

Theorem C101_conv1d : forall k a g m l x B H, good_args a -> fc_length k a -> held_opt1d k a g m l ->
  shape x = [B; a_in a; H] -> fits a H -> can_pad m H (a_padding a) ->
  let nb := conv_nb k (a_n a) (a_segments a) in let per_group := (nb * a_in a / g)%nat in
  exists y, conv1d_opt_forward l x = Ok y /\ shape y = [B; a_out a; positions a H] /\
  forall b o p, (b < B)%nat -> (o < a_out a)%nat -> (p < positions a H)%nat ->
    at_ y [b; o; p] = output_scale a * rsum per_group (fun e => rsum (a_kernel a) (fun i =>
      on1 (seen a m H p i) (fun h =>
        let f := (o / (a_out a / g) * per_group + e)%nat in
        at_ (cv_w (ot_conv l)) [o; e; i] * basis_value k a (f mod nb) (at_ x [b; (f / nb)%nat; h])))).
Proof.
  intros k a g m l x B H G HL Hl Hx FH PH nb per_group.
  destruct (held_opt1d_eq k a g m l Hl) as (NF & Hg & D & DO & w & -> & Sw). pose proof G as (G1 & G2 & _ & _ & G5 & _).
  fold nb in D, Sw. fold per_group in Sw.
  assert (EC : (per_group * g = a_in a * nb)%nat) by (unfold per_group; apply Nat.div_exact in D; [lia|lia]).
  unfold conv1d_opt_forward. cbn [ot_conv ot_groups ot_mode conv_of cv_kind cv_n cv_segments cv_length cv_periodicity cv_w cv_stride cv_padding cv_dilation cv_rescale]. cbv zeta.
  destruct (conv_expansion_ok k false (a_n a) (a_segments a) (a_length a) G1 G2) as [Ok1 Nb].
  destruct (expanded1d (conv_expansion k false (a_n a) (a_segments a) (a_length a)) (tmap (apply_periodicity (conv_per k a)) x) B (a_in a) H) as (t & Et & St & Vt); auto.
  rewrite Et. cbn [rbind]. rewrite Nb in *. fold nb in St, Vt.
  destruct (Conv1d_forward_value g m w (a_stride a) (a_padding a) (a_dilation a) t _ _ _ _ _ _ (positions a H) Sw St EC Hg G5 DO) as (y & Ey & Sy & Vy);
    auto; try (now apply fits_size).
  rewrite Ey. cbn [rbind]. eexists; split; [reflexivity|]. split; [exact Sy|].
  intros b o p Hb Ho Hp. cbn [tmap at_]. rewrite Vy by assumption. rewrite Rmult_comm. unfold output_scale. fold (rescale_of a).
  f_equal. apply rsum_ext. intros e He. apply rsum_ext. intros i Hi.
  change (on1 (seen a m H p i) (fun h => at_ w [o; e; i] * at_ t [b; (o / (a_out a / g) * per_group + e)%nat; h])
    = on1 (seen a m H p i) (fun h => at_ w [o; e; i] *
        basis_value k a ((o / (a_out a / g) * per_group + e) mod nb) (at_ x [b; ((o / (a_out a / g) * per_group + e) / nb)%nat; h]))).
  destruct (seen a m H p i) as [h|] eqn:E1; [|reflexivity]. cbn [on1].
  apply seen_lt in E1; auto. pose proof (group_inside g (a_out a) per_group o e Hg DO Ho He) as I. rewrite EC in I.
  pose proof (conv_nb_pos k _ _ G1 G2) as Pnb. fold nb in Pnb.
  rewrite Vt by assumption. f_equal. cbn [tmap at_]. apply basis_value_eq; auto. apply Nat.mod_upper_bound. fold nb. lia.
Qed.
Print Assumptions C101_conv1d.

Lemma link_of_basis k a w x : good_args a -> fc_length k a ->
  rsum (conv_nb k (a_n a) (a_segments a)) (fun v => w v * basis_value k a v x)
  = conv_link k (a_n a) (a_segments a) (a_length a) (conv_per k a) w x.
Proof.
  intros G HL. pose proof G as (G1 & G2 & _). rewrite <- (conv_link_eq k true (a_n a) (a_segments a) (a_length a) (conv_per k a)); auto; [|intros ->; reflexivity].
  apply rsum_ext. intros v Hv. f_equal. symmetry. now apply basis_value_eq.
Qed.
Lemma on2_rsum r s n f : on2 r s (fun h w => rsum n (fun v => f v h w)) = rsum n (fun v => on2 r s (f v)).
Proof. destruct r, s; cbn [on2]; auto; now rewrite rsum_0. Qed.
Lemma on1_rsum r n f : on1 r (fun h => rsum n (fun v => f v h)) = rsum n (fun v => on1 r (f v)).
Proof. destruct r; cbn [on1]; auto; now rewrite rsum_0. Qed.
Lemma group_channel q C nb c v : (v < nb)%nat ->
  ((q * (C * nb) + (c * nb + v)) / nb = q * C + c)%nat /\ ((q * (C * nb) + (c * nb + v)) mod nb = v)%nat.
Proof.
  intros Hv. replace (q * (C * nb) + (c * nb + v))%nat with (v + (q * C + c) * nb)%nat by ring. split.
  - rewrite Nat.div_add by lia. rewrite Nat.div_small by lia. reflexivity.
  - rewrite Nat.mod_add by lia. now apply Nat.mod_small.
Qed.
Lemma per_group_split nb C g : (1 <= g)%nat -> (C mod g = 0)%nat -> (nb * C / g = C / g * nb)%nat.
Proof.
  intros Hg D. apply Nat.div_exact in D; [|lia]. set (q := (C / g)%nat) in *. rewrite D.
  replace (nb * (g * q))%nat with (q * nb * g)%nat by ring. apply Nat.div_mul. lia.
Qed.

(** When the number of groups divides the number of input channels: each output channel is a layer of its family over the
    channels of its group. *)
Theorem C101_whole_channels_2d : forall k a g m l x B H W, good_args a -> fc_length k a -> held_opt2d k a g m l ->
  (a_in a mod g = 0)%nat ->
  shape x = [B; a_in a; H; W] -> fits a H -> fits a W -> can_pad m H (a_padding a) -> can_pad m W (a_padding a) ->
  exists y, conv2d_opt_forward l x = Ok y /\ shape y = [B; a_out a; positions a H; positions a W] /\
  forall b o p q, (b < B)%nat -> (o < a_out a)%nat -> (p < positions a H)%nat -> (q < positions a W)%nat ->
    at_ y [b; o; p; q] = output_scale a * rsum (a_in a / g) (fun c => rsum (a_kernel a) (fun i => rsum (a_kernel a) (fun j =>
      on2 (seen a m H p i) (seen a m W q j) (fun h w =>
        conv_link k (a_n a) (a_segments a) (a_length a) (conv_per k a) (kernel2d k a (ot_conv l) o c i j)
          (at_ x [b; (o / (a_out a / g) * (a_in a / g) + c)%nat; h; w]))))).
Proof.
  intros k a g m l x B H W G HL Hl DI Hx FH FW PH PW.
  assert (Hg : (1 <= g)%nat) by (destruct (held_opt2d_eq k a g m l G Hl) as (Hg & _); exact Hg).
  destruct (C101_conv2d k a g m l x B H W G HL Hl Hx FH FW PH PW) as (y & E & Sh & V).
  exists y. split; [exact E|]. split; [exact Sh|]. intros b o p q Hb Ho Hp Hq. rewrite V by assumption. f_equal.
  rewrite per_group_split by assumption. rewrite rsum_mul. apply rsum_ext. intros c Hc. rewrite rsum_swap. apply rsum_ext. intros i Hi.
  rewrite rsum_swap. apply rsum_ext. intros j Hj. rewrite <- on2_rsum. destruct (seen a m H p i) as [h|], (seen a m W q j) as [w|]; auto. cbn [on2].
  rewrite <- link_of_basis by assumption. apply rsum_ext. intros v Hv. unfold kernel2d.
  destruct (group_channel (o / (a_out a / g)) (a_in a / g) _ c v Hv) as [-> ->]. reflexivity.
Qed.
Print Assumptions C101_whole_channels_2d.

Theorem C101_whole_channels_1d : forall k a g m l x B H, good_args a -> fc_length k a -> held_opt1d k a g m l ->
  (a_in a mod g = 0)%nat ->
  shape x = [B; a_in a; H] -> fits a H -> can_pad m H (a_padding a) ->
  exists y, conv1d_opt_forward l x = Ok y /\ shape y = [B; a_out a; positions a H] /\
  forall b o p, (b < B)%nat -> (o < a_out a)%nat -> (p < positions a H)%nat ->
    at_ y [b; o; p] = output_scale a * rsum (a_in a / g) (fun c => rsum (a_kernel a) (fun i =>
      on1 (seen a m H p i) (fun h =>
        conv_link k (a_n a) (a_segments a) (a_length a) (conv_per k a) (kernel1d k a (ot_conv l) o c i)
          (at_ x [b; (o / (a_out a / g) * (a_in a / g) + c)%nat; h])))).
Proof.
  intros k a g m l x B H G HL Hl DI Hx FH PH.
  assert (Hg : (1 <= g)%nat) by (destruct (held_opt1d_eq k a g m l Hl) as (_ & Hg & _); exact Hg).
  destruct (C101_conv1d k a g m l x B H G HL Hl Hx FH PH) as (y & E & Sh & V).
  exists y. split; [exact E|]. split; [exact Sh|]. intros b o p Hb Ho Hp. rewrite V by assumption. f_equal.
  rewrite per_group_split by assumption. rewrite rsum_mul. apply rsum_ext. intros c Hc. rewrite rsum_swap. apply rsum_ext. intros i Hi.
  rewrite <- on1_rsum. destruct (seen a m H p i) as [h|]; auto. cbn [on1].
  rewrite <- link_of_basis by assumption. apply rsum_ext. intros v Hv. unfold kernel1d.
  destruct (group_channel (o / (a_out a / g)) (a_in a / g) _ c v Hv) as [-> ->]. reflexivity.
Qed.
Print Assumptions C101_whole_channels_1d.

(** One group and zero padding is the layer without these options, in outputs and errors, for all weights and inputs. *)
Lemma conv2d_one_group w s p d x : same_result (conv2d_groups 1 w s p d x) (conv2d w s p d x).
Proof.
  unfold conv2d_groups, conv2d. destruct (shape w) as [|Co [|C [|k [|k' [|]]]]]; try reflexivity.
  destruct (shape x) as [|B [|C' [|H [|W [|]]]]]; try reflexivity. rewrite Nat.mul_1_r. destruct (Nat.eqb C C'); [|reflexivity].
  destruct (conv_size H k s p d) as [H'|]; [|reflexivity]. destruct (conv_size W k' s p d) as [W'|]; [|reflexivity].
  split; [reflexivity|]. intros ix V. destruct ix as [|b [|o [|y [|z [|]]]]]; cbn in V; try tauto. cbn [at_].
  rewrite Nat.div_1_r, (Nat.div_small o Co) by tauto. reflexivity.
Qed.
Lemma conv1d_one_group w s p d x : same_result (conv1d_groups 1 w s p d x) (conv1d w s p d x).
Proof.
  unfold conv1d_groups, conv1d. destruct (shape w) as [|Co [|C [|k [|]]]]; try reflexivity.
  destruct (shape x) as [|B [|C' [|H [|]]]]; try reflexivity. rewrite Nat.mul_1_r. destruct (Nat.eqb C C'); [|reflexivity].
  destruct (conv_size H k s p d) as [H'|]; [|reflexivity].
  split; [reflexivity|]. intros ix V. destruct ix as [|b [|o [|y [|]]]]; cbn in V; try tauto. cbn [at_].
  rewrite Nat.div_1_r, (Nat.div_small o Co) by tauto. reflexivity.
Qed.
Theorem C101_default : forall l x,
  same_result (conv2d_opt_forward (mkOpt l 1 Zeros) x) (conv2d_forward l x) /\
  same_result (conv1d_opt_forward (mkOpt l 1 Zeros) x) (conv1d_forward l x).
Proof.
  intros l x. unfold conv2d_opt_forward, conv2d_forward, conv1d_opt_forward, conv1d_forward. cbn [ot_conv ot_groups ot_mode Conv2d_forward Conv1d_forward]. cbv zeta.
  split.
  - destruct (Expansion2d _ _) as [t|]; [|reflexivity]. cbn [rbind]. pose proof (conv2d_one_group (cv_w l) (cv_stride l) (cv_padding l) (cv_dilation l) t) as E.
    destruct (conv2d_groups _ _ _ _ _ _) as [y|], (conv2d _ _ _ _ _) as [y'|]; cbn [rbind same_result] in *; try tauto.
    destruct E as [S V]. split; [exact S|]. intros ix Hi. cbn [tmap at_]. now rewrite V.
  - destruct (Expansion1d _ _) as [t|]; [|reflexivity]. cbn [rbind]. pose proof (conv1d_one_group (cv_w l) (cv_stride l) (cv_padding l) (cv_dilation l) t) as E.
    destruct (conv1d_groups _ _ _ _ _ _) as [y|], (conv1d _ _ _ _ _) as [y'|]; cbn [rbind same_result] in *; try tauto.
    destruct E as [S V]. split; [exact S|]. intros ix Hi. cbn [tmap at_]. now rewrite V.
Qed.
Print Assumptions C101_default.

Theorem C101_default_constructor : forall k a m u draw, good_args a ->
  exists l l', new_conv2d k a u draw = Ok l /\ new_conv2d_opt k a 1 m u draw = Ok (mkOpt l' 1 m) /\
    teq (cv_w l') (cv_w l) /\ l = conv_with_w l' (cv_w l).
Proof.
  intros k a m u draw G. pose proof G as (G1 & G2 & _). pose proof (conv_nb_pos k _ _ G1 G2) as P.
  unfold new_conv2d, new_conv2d_opt. cbv zeta. rewrite (proj2 (check_groups_ok 1 _ _)) by (rewrite !Nat.mod_1_r; lia). cbn [rbind]. rewrite Nat.div_1_r.
  destruct k; cbn [rbind]; [eexists; eexists; split; [reflexivity|]; split; [reflexivity|]; split; [split; [reflexivity|intros; reflexivity]|reflexivity]| | |].
  all: match goal with |- context[constant_random_initialization_conv2d ?w0 ?nb ?O _ ?k _ ?m ?d] =>
     destruct (constant_conv2d w0 nb O (a_in a) k m d P) as (v & E & Sh & V) end; rewrite E; cbn [rbind];
   match goal with |- context[copy_ ?w0 ?vv] => destruct (copy_same w0 vv Sh) as (w & Ew & Tw) end;
   rewrite Ew; cbn [rbind]; eexists; eexists; (split; [reflexivity|]); (split; [reflexivity|]); (split; [exact Tw|reflexivity]).
Qed.
Print Assumptions C101_default_constructor.

(** Of the two-dimensional classes only the Fourier one can be built with more than one group. *)
Theorem C101_groups_rejected_2d : forall k a g m u draw, good_args a -> k <> FourierConv -> g <> 1%nat ->
  new_conv2d_opt k a g m u draw = Err RuntimeError \/ new_conv2d_opt k a g m u draw = Err ValueError.
Proof.
  intros k a g m u draw G NF N1. pose proof G as (G1 & G2 & G3 & _). pose proof (conv_nb_pos k _ _ G1 G2) as P.
  unfold new_conv2d_opt. cbv zeta. set (C := (conv_nb k (a_n a) (a_segments a) * a_in a)%nat).
  destruct (check_groups g C (a_out a)) as [[]|] eqn:Ec; [|right; pose proof (check_groups_err g C (a_out a)) as R; rewrite Ec in R; cbn [rbind]; injection (R ltac:(discriminate)) as ->; reflexivity].
  left. cbn [rbind]. apply check_groups_ok in Ec as (D1 & D2 & D3). apply Nat.div_exact in D2; [|lia].
  assert (C1 : (1 <= C)%nat) by (unfold C; nia).
  assert (N2 : C <> (C / g)%nat) by (set (q := (C / g)%nat) in *; destruct q; nia). assert (N3 : C <> 1%nat) by (intros Z; rewrite Z in D2; destruct (1 / g)%nat as [|[|]]; nia).
  destruct k; [contradiction| | |].
  all: match goal with |- context[constant_random_initialization_conv2d ?w0 ?nb ?O _ ?k _ ?m ?d] =>
     destruct (constant_conv2d w0 nb O (a_in a) k m d P) as (v & E & Sh & _) end; fold C in E, Sh; rewrite E; cbn [rbind];
   rewrite (copy_wider _ v (a_out a) (C / g) C (a_kernel a)); [reflexivity|reflexivity|exact Sh|exact N2|exact N3].
Qed.
Print Assumptions C101_groups_rejected_2d.

Theorem C101_constructible : forall k a g m u draw, good_args a ->
  (exists l, new_conv2d_opt k a g m u draw = Ok l) <->
  (g = 1%nat \/ (k = FourierConv /\ (1 <= g)%nat /\ ((a_n a * a_in a) mod g = 0)%nat /\ (a_out a mod g = 0)%nat)).
Proof.
  intros k a g m u draw G. split.
  - intros [l E]. destruct (Nat.eq_dec g 1) as [|N1]; [now left|right].
    assert (HK : k = FourierConv). { destruct k; auto; exfalso;
      match type of E with new_conv2d_opt ?k _ _ _ _ _ = _ => assert (NF : k <> FourierConv) by discriminate; destruct (C101_groups_rejected_2d k a g m u draw G NF N1); congruence end. }
    split; [exact HK|]. destruct (held_opt2d_eq k a g m l G) as (D1 & D2 & D3 & _).
    { exists u, draw, l, (cv_w (ot_conv l)). split; [exact E|]. split; [reflexivity|]. destruct l as [[] ? ?]; reflexivity. }
    subst k. auto.
  - intros D. destruct (new_conv2d_opt_spec k a g m u draw G) as (w & E & _); [tauto| |eauto].
    apply check_groups_ok. destruct D as [->|(-> & D1 & D2 & D3)]; [rewrite !Nat.mod_1_r; lia|auto].
Qed.
Print Assumptions C101_constructible.

Theorem C101_constructible_1d : forall k a g m u,
  (exists l, new_conv1d_opt k a g m u = Ok l) <->
  (k <> FourierConv /\ (1 <= g)%nat /\ ((conv_nb k (a_n a) (a_segments a) * a_in a) mod g = 0)%nat /\ (a_out a mod g = 0)%nat).
Proof.
  intros k a g m u. split.
  - intros [l E]. destruct (held_opt1d_eq k a g m l) as (D0 & D1 & D2 & D3 & _); [|auto].
    exists u, l, (cv_w (ot_conv l)). split; [exact E|]. split; [reflexivity|]. destruct l as [[] ? ?]; reflexivity.
  - intros (D0 & D). unfold new_conv1d_opt. destruct k; [contradiction| | |]; rewrite (proj2 (check_groups_ok _ _ _) D); cbn [rbind]; eauto.
Qed.
Print Assumptions C101_constructible_1d.

(** The number of groups has to divide the number of expanded channels only, so a channel can be torn apart: with one input
    channel and as many groups and outputs as nodes, every layer is accepted, and whatever its weights, output channel 0
    vanishes at the other nodes, so it is not a polynomial one can choose. *)
Theorem C101_split_channel_refuted : forall n len m, (2 <= n)%nat -> 0 < len ->
  let a := mkConvArgs n 1 1 n 1 len false None 1 1 0 1 in
  (forall u, exists l, new_conv1d_opt PolynomialConv a n m u = Ok l) /\
  exists x, shape x = [1; 1; 1]%nat /\ forall l, held_opt1d PolynomialConv a n m l ->
    exists y, conv1d_opt_forward l x = Ok y /\ at_ y [0; 0; 0]%nat = 0.
Proof.
  intros n len m Hn Hlen a. assert (G : good_args a) by (unfold good_args, a; cbn; lia). split.
  - intros u. apply C101_constructible_1d. unfold a. cbn [conv_nb a_n a_in a_out]. rewrite Nat.mul_1_r, Nat.mod_same by lia. repeat split; [discriminate|lia].
  - set (t := node n len 1). exists (mkT [1; 1; 1]%nat (fun _ => t)). split; [reflexivity|]. intros l Hl.
    destruct (C101_conv1d PolynomialConv a n m l (mkT [1; 1; 1]%nat (fun _ => t)) 1 1 G I Hl) as (y & E & Sh & V); [reflexivity|unfold fits, a; cbn; lia|destruct m; cbn; lia|].
    exists y. split; [exact E|]. change (positions a 1) with 1%nat in *.
    rewrite V; [|lia|unfold a; cbn; lia|lia]. replace (seen a m 1 0 0) with (Some 0%nat) by (destruct m; reflexivity).
    cbn [conv_nb a a_n a_in a_segments a_kernel a_out]. rewrite Nat.mul_1_r, Nat.div_same by lia. cbn [rsum on1].
    replace (seen _ m 1 0 0) with (Some 0%nat) by (destruct m; reflexivity). cbn [on1].
    rewrite Nat.div_0_l by lia. cbn [Nat.mul Nat.add]. rewrite Nat.mod_0_l by lia. cbn [at_].
    replace (basis_value PolynomialConv a 0 t) with 0; [ring|].
    rewrite <- (basis_value_eq PolynomialConv a false 0 t G I) by (unfold a; cbn; lia).
    symmetry. cbn [conv_expansion conv_per a a_n a_segments a_length a_periodicity apply_periodicity LagrangeExpand ev]. fold a.
    unfold t. change (lag n len 0 (node n len 1) = 0). rewrite lag_delta; [reflexivity|lra|lia|lia].
Qed.
Print Assumptions C101_split_channel_refuted.

Example C101_case : exists l, held_opt1d PolynomialConv (mkConvArgs 3 1 4 2 3 2 false None 1 1 1 1) 2 Reflect l /\
  (4 mod 2 = 0)%nat /\ can_pad Reflect 5 1 /\ fits (mkConvArgs 3 1 4 2 3 2 false None 1 1 1 1) 5.
Proof.
  destruct (proj2 (C101_constructible_1d PolynomialConv (mkConvArgs 3 1 4 2 3 2 false None 1 1 1 1) 2 Reflect (fun _ => 0))) as [l E];
    [repeat split; try discriminate; cbn; lia|].
  exists l. split; [|split; [reflexivity|split; [cbn; lia|unfold fits; cbn; lia]]].
  exists (fun _ => 0), l, (cv_w (ot_conv l)). split; [exact E|]. split; [reflexivity|]. destruct l as [[] ? ?]; reflexivity.
Qed.
Example C101_case_2d : exists l, held_opt2d FourierConv (mkConvArgs 3 1 4 2 3 2 false None 1 1 1 1) 2 Circular l.
Proof.
  destruct (proj2 (C101_constructible FourierConv (mkConvArgs 3 1 4 2 3 2 false None 1 1 1 1) 2 Circular (fun _ => 0) (fun _ => 0) ltac:(unfold good_args; cbn; lia))) as [l E];
    [right; repeat split; cbn; lia|].
  exists l.
  exists (fun _ => 0), (fun _ => 0), l, (cv_w (ot_conv l)). split; [exact E|]. split; [reflexivity|]. destruct l as [[] ? ?]; reflexivity.
Qed.

(** ** C102 *)

(** The padding of the other modes is a padding of the image: the layer without padding on the padded image. *)
Definition without_padding (a : conv_args) : conv_args :=
  mkConvArgs (a_n a) (a_segments a) (a_in a) (a_out a) (a_kernel a) (a_length a) (a_rescale_output a) (a_periodicity a)
    (a_weight_magnitude a) (a_stride a) 0 (a_dilation a).
Definition padded_image (m : padding_mode) (p H W : nat) (x xp : tensor R) : Prop :=
  exists B C, shape x = [B; C; H; W] /\ shape xp = [B; C; H + 2 * p; W + 2 * p]%nat /\
  forall b c y z, (b < B)%nat -> (c < C)%nat -> (y < H + 2 * p)%nat -> (z < W + 2 * p)%nat ->
    exists h w, row_at m H (Z.of_nat y - Z.of_nat p) = Some h /\ row_at m W (Z.of_nat z - Z.of_nat p) = Some w /\
      at_ xp [b; c; y; z] = at_ x [b; c; h; w].

Theorem C102_padded_image : forall k a g m l l0 x xp H W y, good_args a -> m <> Zeros ->
  held_opt2d k a g m l -> held_opt2d k (without_padding a) g Zeros l0 -> cv_w (ot_conv l0) = cv_w (ot_conv l) ->
  nth 1 (shape x) 0%nat = a_in a -> padded_image m (a_padding a) H W x xp ->
  fits a H -> fits a W -> can_pad m H (a_padding a) -> can_pad m W (a_padding a) ->
  conv2d_opt_forward l x = Ok y -> exists y0, conv2d_opt_forward l0 xp = Ok y0 /\ teq y0 y.
Proof.
  intros k a g m l l0 x xp H W y G NZ Hl Hl0 Ew Cin (B & C & Sx & Sp & Vp) FH FW PH PW E.
  rewrite Sx in Cin. cbn in Cin. subst C. set (a0 := without_padding a) in *.
  assert (G0 : good_args a0) by exact G.
  assert (F0 : forall N, fits a N -> fits a0 (N + 2 * a_padding a)) by (unfold fits, a0; cbn; intros; lia).
  assert (Q0 : forall N, positions a0 (N + 2 * a_padding a) = positions a N) by (unfold positions, a0; cbn; intros; f_equal; f_equal; lia).
  destruct (opt2d_value k a g m l x B H W G Hl Sx FH FW PH PW) as (y' & E' & Sh & V). rewrite E in E'. injection E' as <-.
  destruct (opt2d_value k a0 g Zeros l0 xp B (H + 2 * a_padding a) (W + 2 * a_padding a) G0 Hl0 Sp (F0 _ FH) (F0 _ FW) I I) as (y0 & E0 & Sh0 & V0).
  rewrite !Q0 in *. exists y0. split; [exact E0|]. split; [rewrite Sh0, Sh; reflexivity|].
  intros ix Hi. rewrite Sh0 in Hi. destruct ix as [|b [|o [|p [|q [|]]]]]; cbn -[positions] in Hi; try tauto. destruct Hi as (Hb & Ho & Hp & Hq & _).
  rewrite V, V0 by assumption. cbn [a0 without_padding a_kernel a_n a_segments a_in a_out a_length]. fold a0. change (output_scale a0) with (output_scale a).
  change (conv_per k a0) with (conv_per k a). rewrite Ew. f_equal.
  apply rsum_ext. intros e He. apply rsum_ext. intros i Hi. apply rsum_ext. intros j Hj.
  pose proof G as (G1 & G2 & _ & _ & G5 & _).
  pose proof (position_inside H _ _ _ _ _ p i G5 (fits_size a H G FH) Hp Hi) as I1.
  pose proof (position_inside W _ _ _ _ _ q j G5 (fits_size a W G FW) Hq Hj) as I2.
  assert (R : forall N t, (t < N)%nat -> row_at Zeros N (Z.of_nat t - Z.of_nat 0) = Some t).
  { intros N t L. unfold row_at. destruct (Z.leb_spec 0 (Z.of_nat t - Z.of_nat 0)), (Z.leb_spec (Z.of_nat t - Z.of_nat 0) (Z.of_nat N - 1)); cbn [andb]; try lia. f_equal. lia. }
  unfold seen at 1 2. cbn [a0 without_padding a_stride a_dilation a_padding]. rewrite !R by assumption. cbn [on2].
  destruct (held_opt2d_eq k a g m l G Hl) as (Hg & D & DO & _).
  set (f := (o / (a_out a / g) * (conv_nb k (a_n a) (a_segments a) * a_in a / g) + e)%nat).
  assert (Lf : (f / conv_nb k (a_n a) (a_segments a) < a_in a)%nat).
  { pose proof (conv_nb_pos k _ _ G1 G2). apply Nat.div_lt_upper_bound; [lia|]. pose proof (group_inside g (a_out a) _ o e Hg DO Ho He) as L.
    fold f in L. apply Nat.div_exact in D; [|lia]. lia. }
  destruct (Vp b (f / conv_nb k (a_n a) (a_segments a))%nat _ _ Hb Lf I1 I2) as (h & w & Eh & Ewv & ->).
  unfold seen. rewrite Eh, Ewv. reflexivity.
Qed.
Print Assumptions C102_padded_image.

(** An image that is too small for the padding is rejected. *)
Theorem C102_too_much_padding : forall k a g m l x B H W, good_args a -> m <> Zeros -> held_opt2d k a g m l ->
  shape x = [B; a_in a; H; W] -> ~ (can_pad m H (a_padding a) /\ can_pad m W (a_padding a)) ->
  conv2d_opt_forward l x = Err RuntimeError.
Proof.
  intros k a g m l x B H W G NZ Hl Hx N. destruct (held_opt2d_eq k a g m l G Hl) as (_ & _ & _ & w & -> & _). pose proof G as (G1 & G2 & _).
  unfold conv2d_opt_forward. cbn [ot_conv ot_groups ot_mode conv_of cv_kind cv_n cv_segments cv_length cv_periodicity cv_w cv_stride cv_padding cv_dilation cv_rescale]. cbv zeta.
  destruct (conv_expansion_ok k true (a_n a) (a_segments a) (a_length a) G1 G2) as [Ok1 _].
  destruct (expanded2d (conv_expansion k true (a_n a) (a_segments a) (a_length a)) (tmap (apply_periodicity (conv_per k a)) x) B (a_in a) H W) as (t & Et & St & _); auto.
  rewrite Et. cbn [rbind].
  assert (P : pad2d m (a_padding a) t = Err RuntimeError).
  { unfold pad2d. rewrite St. destruct (pad_ok m H (a_padding a)) eqn:E1; [|reflexivity]. destruct (pad_ok m W (a_padding a)) eqn:E2; [|reflexivity].
    exfalso. apply N. split; now apply pad_ok_iff. }
  destruct m; [contradiction| | |]; cbn [Conv2d_forward]; rewrite P; reflexivity.
Qed.
Print Assumptions C102_too_much_padding.

(** Circular padding of the usual amount with stride 1: turning the image around turns the output around. *)
Lemma turn H t u : (1 <= H)%nat -> ((Z.to_nat (t mod Z.of_nat H) + u) mod H = Z.to_nat ((t + Z.of_nat u) mod Z.of_nat H))%nat.
Proof.
  intros L. assert (0 <= t mod Z.of_nat H < Z.of_nat H)%Z by (apply Z.mod_pos_bound; lia).
  apply Nat2Z.inj. rewrite Nat2Z.inj_mod, Nat2Z.inj_add, !Z2Nat.id; [|apply Z.mod_pos_bound; lia|lia].
  now rewrite Zplus_mod_idemp_l.
Qed.
Theorem C102_circular_translation : forall k a g l x x' B H W u v y y', good_args a ->
  a_stride a = 1%nat -> (2 * a_padding a = a_dilation a * (a_kernel a - 1))%nat -> held_opt2d k a g Circular l ->
  (1 <= H)%nat -> (1 <= W)%nat -> (a_padding a <= H)%nat -> (a_padding a <= W)%nat ->
  shape x = [B; a_in a; H; W] -> shape x' = [B; a_in a; H; W] ->
  (forall b c h w, (b < B)%nat -> (c < a_in a)%nat -> (h < H)%nat -> (w < W)%nat ->
     at_ x' [b; c; h; w] = at_ x [b; c; (h + u) mod H; (w + v) mod W]%nat) ->
  conv2d_opt_forward l x = Ok y -> conv2d_opt_forward l x' = Ok y' ->
  shape y = [B; a_out a; H; W] /\ shape y' = [B; a_out a; H; W] /\
  forall b o p q, (b < B)%nat -> (o < a_out a)%nat -> (p < H)%nat -> (q < W)%nat ->
    at_ y' [b; o; p; q] = at_ y [b; o; (p + u) mod H; (q + v) mod W]%nat.
Proof.
  intros k a g l x x' B H W u v y y' G S1 P Hl LH LW PH PW Hx Hx' T E E'.
  assert (F : forall N, (1 <= N)%nat -> fits a N) by (unfold fits; intros; lia).
  assert (Q : forall N, (1 <= N)%nat -> positions a N = N) by (unfold positions; intros; rewrite S1, Nat.div_1_r; lia).
  destruct (opt2d_value k a g Circular l x B H W G Hl Hx (F _ LH) (F _ LW)) as (z & Ez & Sz & V); [cbn; lia|cbn; lia|]. rewrite E in Ez. injection Ez as <-.
  destruct (opt2d_value k a g Circular l x' B H W G Hl Hx' (F _ LH) (F _ LW)) as (z & Ez & Sz' & V'); [cbn; lia|cbn; lia|]. rewrite E' in Ez. injection Ez as <-.
  rewrite !Q in * by assumption. split; [exact Sz|]. split; [exact Sz'|]. intros b o p q Hb Ho Hp Hq.
  rewrite V' by assumption. rewrite V by (try assumption; apply Nat.mod_upper_bound; lia). f_equal.
  pose proof G as (G1 & G2 & _). destruct (held_opt2d_eq k a g Circular l G Hl) as (Hg & D & DO & _).
  apply rsum_ext. intros e He. apply rsum_ext. intros i Hi. apply rsum_ext. intros j Hj.
  unfold seen, row_at. cbn [on2]. f_equal. f_equal. f_equal.
  set (f := (o / (a_out a / g) * (conv_nb k (a_n a) (a_segments a) * a_in a / g) + e)%nat).
  assert (Lf : (f / conv_nb k (a_n a) (a_segments a) < a_in a)%nat).
  { pose proof (conv_nb_pos k _ _ G1 G2). apply Nat.div_lt_upper_bound; [lia|]. pose proof (group_inside g (a_out a) _ o e Hg DO Ho He) as L.
    fold f in L. apply Nat.div_exact in D; [|lia]. lia. }
  assert (R : forall N r t s : nat, (1 <= N)%nat ->
    ((Z.to_nat ((Z.of_nat (r * a_stride a + t)%nat - Z.of_nat (a_padding a)) mod Z.of_nat N)%Z + s)%nat mod N
     = Z.to_nat ((Z.of_nat (((r + s) mod N) * a_stride a + t)%nat - Z.of_nat (a_padding a)) mod Z.of_nat N)%Z)%nat).
  { intros N r t s LN. rewrite turn by assumption. f_equal. rewrite S1, !Nat.mul_1_r, !Nat2Z.inj_add, Nat2Z.inj_mod, Nat2Z.inj_add.
    replace ((Z.of_nat r + Z.of_nat s) mod Z.of_nat N + Z.of_nat t - Z.of_nat (a_padding a))%Z
      with ((Z.of_nat r + Z.of_nat s) mod Z.of_nat N + (Z.of_nat t - Z.of_nat (a_padding a)))%Z by ring.
    rewrite Zplus_mod_idemp_l. f_equal. ring. }
  rewrite T; auto.
  - now rewrite !R by assumption.
  - assert (0 <= (Z.of_nat (p * a_stride a + i * a_dilation a) - Z.of_nat (a_padding a)) mod Z.of_nat H < Z.of_nat H)%Z by (apply Z.mod_pos_bound; lia). lia.
  - assert (0 <= (Z.of_nat (q * a_stride a + j * a_dilation a) - Z.of_nat (a_padding a)) mod Z.of_nat W < Z.of_nat W)%Z by (apply Z.mod_pos_bound; lia). lia.
Qed.
Print Assumptions C102_circular_translation.

(** Where a fresh layer sees pixels only, its output does not depend on them. *)
Lemma fresh_value k a m u draw x B H W : good_args a -> a_length a <> 0 -> k <> FourierConv ->
  shape x = [B; a_in a; H; W] -> fits a H -> fits a W -> can_pad m H (a_padding a) -> can_pad m W (a_padding a) ->
  exists l y, new_conv2d_opt k a 1 m u draw = Ok l /\ conv2d_opt_forward l x = Ok y /\ shape y = [B; a_out a; positions a H; positions a W] /\
  forall b o p q, (b < B)%nat -> (o < a_out a)%nat -> (p < positions a H)%nat -> (q < positions a W)%nat ->
    ((forall i, (i < a_kernel a)%nat -> seen a m H p i <> None) /\ (forall j, (j < a_kernel a)%nat -> seen a m W q j <> None) ->
    at_ y [b; o; p; q] = output_scale a * rsum (a_in a) (fun c => rsum (a_kernel a) (fun i => rsum (a_kernel a) (fun j =>
      draw [o; c; i; j] * a_weight_magnitude a / INR (a_in a * a_kernel a * a_kernel a))))) /\
    ((forall i, (i < a_kernel a)%nat -> seen a m H p i = None) -> at_ y [b; o; p; q] = 0).
Proof.
  intros G HL NF Hx FH FW PH PW. pose proof G as (G1 & G2 & _).
  destruct (new_conv2d_opt_spec k a 1 m u draw G) as (w & E & Sw & Vw); [now right|apply check_groups_ok; rewrite !Nat.mod_1_r; lia|].
  assert (Hl : held_opt2d k a 1 m (mkOpt (conv_of k a w) 1 m)) by (exists u, draw, (mkOpt (conv_of k a w) 1 m), w; auto).
  destruct (opt2d_value k a 1 m _ x B H W G Hl Hx FH FW PH PW) as (y & Ey & Sy & V).
  exists (mkOpt (conv_of k a w) 1 m), y. split; [exact E|]. split; [exact Ey|]. split; [exact Sy|].
  intros b o p q Hb Ho Hp Hq. rewrite V by assumption. split.
  - intros [S1 S2]. f_equal. rewrite !Nat.div_1_r. rewrite (Nat.div_small o) by assumption.
    rewrite (Nat.mul_comm _ (a_in a)), rsum_mul. apply rsum_ext. intros c Hc. rewrite rsum_swap. apply rsum_ext. intros i Hi. rewrite rsum_swap. apply rsum_ext. intros j Hj.
    specialize (S1 i Hi). specialize (S2 j Hj). destruct (seen a m H p i) as [h|]; [|contradiction]. destruct (seen a m W q j) as [z|]; [|contradiction].
    cbn [on2 ot_conv conv_of cv_w].
    rewrite (rsum_ext _ _ (fun v => draw [o; c; i; j] * a_weight_magnitude a / INR (a_in a * a_kernel a * a_kernel a) *
       ev (conv_expansion k true (a_n a) (a_segments a) (a_length a)) (apply_periodicity (conv_per k a) (at_ x [b; c; h; z])) v)).
    + rewrite rsum_scal, ev_sum by auto. ring.
    + intros v Hv. rewrite Vw by auto. f_equal. destruct (group_channel 0 (a_in a) _ c v Hv) as [E1 E2]. cbn [Nat.mul Nat.add] in *. now rewrite E1, E2.
  - intros S1. rewrite (rsum_ext _ _ (fun _ => 0)); [rewrite rsum_0; ring|]. intros e He.
    rewrite (rsum_ext _ _ (fun _ => 0)); [apply rsum_0|]. intros i Hi. rewrite (rsum_ext _ _ (fun _ => 0)); [apply rsum_0|]. intros j Hj.
    now rewrite S1.
Qed.

(** Fresh layers are constant over the whole output, border included, unless the padding is by zeros. *)
Theorem C102_fresh_is_constant : forall k a m u draw x B H W, good_args a -> a_length a <> 0 -> k <> FourierConv -> m <> Zeros ->
  shape x = [B; a_in a; H; W] -> fits a H -> fits a W -> can_pad m H (a_padding a) -> can_pad m W (a_padding a) ->
  exists l y, new_conv2d_opt k a 1 m u draw = Ok l /\ conv2d_opt_forward l x = Ok y /\ shape y = [B; a_out a; positions a H; positions a W] /\
  forall b o p q, (b < B)%nat -> (o < a_out a)%nat -> (p < positions a H)%nat -> (q < positions a W)%nat ->
    at_ y [b; o; p; q] = output_scale a * rsum (a_in a) (fun c => rsum (a_kernel a) (fun i => rsum (a_kernel a) (fun j =>
      draw [o; c; i; j] * a_weight_magnitude a / INR (a_in a * a_kernel a * a_kernel a)))).
Proof.
  intros k a m u draw x B H W G HL NF NZ Hx FH FW PH PW. 
  destruct (fresh_value k a m u draw x B H W G HL NF Hx FH FW PH PW) as (l & y & E & Ey & Sy & V).
  exists l, y. split; [exact E|]. split; [exact Ey|]. split; [exact Sy|]. intros b o p q Hb Ho Hp Hq.
  assert (Sn : forall N r t, seen a m N r t <> None) by (intros; unfold seen, row_at; destruct m; [contradiction| | |]; discriminate).
  apply V; auto.
Qed.
Print Assumptions C102_fresh_is_constant.

(** Zero padding is not a padding of the image by pixels that are zero, nor by any pixels: with kernel size 1 the corner of
    the output is 0, while the layer without padding, built from the same draws, has a positive output on every image. *)
Theorem C102_zero_padding_refuted : forall k a u draw x x0 B H W H0 W0, good_args a -> a_length a <> 0 -> k <> FourierConv ->
  a_kernel a = 1%nat -> (1 <= a_padding a)%nat -> 0 < a_weight_magnitude a -> (forall ix, 0 < draw ix) ->
  shape x = [B; a_in a; H; W] -> shape x0 = [B; a_in a; H0; W0] -> (1 <= H0)%nat -> (1 <= W0)%nat ->
  exists l l0 y y0, new_conv2d_opt k a 1 Zeros u draw = Ok l /\ new_conv2d_opt k (without_padding a) 1 Zeros u draw = Ok l0 /\
    conv2d_opt_forward l x = Ok y /\ conv2d_opt_forward l0 x0 = Ok y0 /\
    forall b o, (b < B)%nat -> (o < a_out a)%nat -> at_ y [b; o; 0; 0]%nat = 0 /\ 0 < at_ y0 [b; o; 0; 0]%nat.
Proof.
  intros k a u draw x x0 B H W H0 W0 G HL NF K1 P1 Mg Dr Hx Hx0 LH LW. pose proof G as (G1 & G2 & G3 & _).
  assert (F : forall N, fits a N) by (intros; unfold fits; rewrite K1; lia).
  set (a0 := without_padding a). assert (G0 : good_args a0) by exact G.
  assert (F0 : forall N, (1 <= N)%nat -> fits a0 N) by (intros; unfold fits, a0; cbn; rewrite K1; lia).
  destruct (fresh_value k a Zeros u draw x B H W G HL NF Hx (F _) (F _) I I) as (l & y & E & Ey & Sy & V).
  destruct (fresh_value k a0 Zeros u draw x0 B H0 W0 G0 HL NF Hx0 (F0 _ LH) (F0 _ LW) I I) as (l0 & y0 & E0 & Ey0 & Sy0 & V0).
  exists l, l0, y, y0. split; [exact E|]. split; [exact E0|]. split; [exact Ey|]. split; [exact Ey0|].
  assert (P : forall c N, (0 < positions c N)%nat) by (intros; unfold positions; lia).
  intros b o Hb Ho. split.
  - apply V; auto. intros i Hi. assert (i = 0)%nat by lia. subst i. unfold seen, row_at. cbn [Nat.mul Nat.add].
    destruct (Z.leb_spec 0 (Z.of_nat 0 - Z.of_nat (a_padding a))); [lia|]. reflexivity.
  - assert (Sn : forall N i, (1 <= N)%nat -> (i < a_kernel a0)%nat -> seen a0 Zeros N 0 i <> None).
    { intros N i LN Hi. change (a_kernel a0) with (a_kernel a) in Hi. assert (i = 0)%nat by lia. subst i. unfold seen, row_at, a0. cbn.
      destruct (Z.leb_spec 0 (Z.of_nat N - 1)); [discriminate|lia]. }
    destruct (V0 b o 0%nat 0%nat Hb Ho (P _ _) (P _ _)) as [Va _]. rewrite Va.
    + assert (N : 0 < INR (a_in a0 * a_kernel a0 * a_kernel a0)) by (apply lt_0_INR; cbn [a0 without_padding a_in a_kernel]; rewrite K1; lia).
      apply Rmult_lt_0_compat; [unfold output_scale; destruct (a_rescale_output a0); [unfold Rdiv; rewrite Rmult_1_l; now apply Rinv_0_lt_compat|lra]|].
      assert (T : forall ix, 0 < draw ix * a_weight_magnitude a0 / INR (a_in a0 * a_kernel a0 * a_kernel a0)).
      { intros ix. apply Rdiv_lt_0_compat; auto. apply Rmult_lt_0_compat; [apply Dr|exact Mg]. }
      assert (Sp : forall n f, (1 <= n)%nat -> (forall i, (i < n)%nat -> 0 < f i) -> 0 < rsum n f).
      { intros n f Ln Pf. apply rsum_pos; [intros; apply Rlt_le; auto|]. exists 0%nat. auto. }
      change (a_in a0) with (a_in a) in *. change (a_kernel a0) with (a_kernel a) in *.
      apply Sp; [lia|]. intros c Hc. apply Sp; [lia|]. intros i Hi. apply Sp; [lia|]. intros j Hj. apply T.
    + split; intros; apply Sn; auto.
Qed.
Print Assumptions C102_zero_padding_refuted.

Example C102_case : let a := mkConvArgs 3 2 1 1 3 2 false None 1 1 1 1 in
  good_args a /\ a_stride a = 1%nat /\ (2 * a_padding a = a_dilation a * (a_kernel a - 1))%nat /\
  (exists l, held_opt2d PiecewiseConv a 1 Circular l) /\ can_pad Circular 4 (a_padding a) /\
  seen a Circular 4 0 0 = Some 3%nat /\ seen a Reflect 4 0 0 = Some 1%nat /\ seen a Replicate 4 0 0 = Some 0%nat /\ seen a Zeros 4 0 0 = None /\
  seen a Circular 4 3 2 = Some 0%nat /\ seen a Reflect 4 3 2 = Some 2%nat /\ seen a Replicate 4 3 2 = Some 3%nat.
Proof.
  intros a. assert (G : good_args a) by (unfold good_args, a; cbn; lia). split; [exact G|]. split; [reflexivity|]. split; [reflexivity|]. split; [|split; [cbn; lia|repeat split]].
  destruct (proj2 (C101_constructible PiecewiseConv a 1 Circular (fun _ => 0) (fun _ => 0) G)) as [l E]; [now left|].
  exists l, (fun _ => 0), (fun _ => 0), l, (cv_w (ot_conv l)). split; [exact E|]. split; [reflexivity|]. destruct l as [[] ? ?]; reflexivity.
Qed.
