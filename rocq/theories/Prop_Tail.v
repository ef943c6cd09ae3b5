(** * Tail focus networks (C39). *)
From Coq Require Import String Reals ZArith List Lia Lra Bool.
From Verif Require Import Spec Tensor Utils Convolution Layers Vae ConvNetworks Observe ObserveConv ObserveConvNet
  SumFacts TensorFacts ConvFacts ConvNetFacts Prop_Conv Prop_ConvNet.
Import ListNotations.
Local Open Scope nat_scope.

Lemma slice_kept f W : slice_start W (- f) = W - kept f W.
Proof.
  unfold slice_start, kept. destruct (Z.leb_spec 1 f); destruct (Z.ltb_spec (- f) 0); try lia.
  destruct (Z.eqb_spec f 0); lia.
Qed.
Lemma kept_le f W : kept f W <= W.
Proof. unfold kept. destruct (1 <=? f)%Z; [lia|]. destruct (f =? 0)%Z; lia. Qed.

Definition flat_tail (f : Z) (x : tensor R) : tensor R := match rbind (tail_of f x) flatten1 with Ok t => t | Err _ => x end.
Lemma flat_tail_ok f x B C W : shape x = [B; C; W] ->
  rbind (tail_of f x) flatten1 = Ok (flat_tail f x) /\ shape (flat_tail f x) = [B; C * kept f W] /\
  forall b c j, b < B -> c < C -> j < kept f W -> at_ (flat_tail f x) [b; c * kept f W + j] = at_ x [b; c; W - kept f W + j].
Proof.
  intros Hx. unfold flat_tail, tail_of. rewrite Hx. cbn [rbind].
  rewrite slice_kept. replace (W - (W - kept f W)) with (kept f W) by (pose proof (kept_le f W); lia).
  match goal with |- context [flatten1 ?t] => destruct (flatten1_ok t B [C; kept f W]) as (y & E & Sh & V); [reflexivity|discriminate|] end.
  rewrite E. split; [reflexivity|]. split; [rewrite Sh; cbn [prodn]; f_equal; f_equal; lia|].
  intros b c j Hb Hc Hj. specialize (V b [c; j] Hb). cbn [ravel prodn at_] in V. rewrite <- V by (cbn; auto). f_equal. f_equal. f_equal. lia.
Qed.

Definition cols (t : tensor R) : nat := nth 1 (shape t) 0.
Lemma cat1_ok B : forall ts, ts <> [] -> (forall t, In t ts -> shape t = [B; cols t]) ->
  exists y, cat1 ts = Ok y /\ shape y = [B; list_sum (map cols ts)] /\
  forall i t, nth_error ts i = Some t -> forall b j, b < B -> j < cols t -> at_ y [b; list_sum (map cols (firstn i ts)) + j] = at_ t [b; j].
Proof.
  induction ts as [|t ts IH]; intros N H; [contradiction|]. destruct ts as [|t' ts].
  - exists t. cbn [cat1 map list_sum fold_right]. split; [reflexivity|]. split; [rewrite (H t) at 1 by (now left); cbn; f_equal; f_equal; lia|].
    intros [|i] u E; [injection E as <-|destruct i; discriminate]. intros. reflexivity.
  - destruct IH as (r & Er & Sr & Vr); [discriminate|intros; apply H; now right|].
    cbn [cat1]. cbn [cat1] in Er. rewrite Er. cbn [rbind]. rewrite Sr, (H t) by (now left). rewrite Nat.eqb_refl.
    eexists. split; [reflexivity|]. split; [reflexivity|]. intros [|i] u E b j Hb Hj; cbn [at_].
    + injection E as <-. cbn [firstn map list_sum fold_right]. change (0 + j) with j. destruct (Nat.ltb_spec j (cols t)); [reflexivity|lia].
    + cbn [firstn map list_sum fold_right]. fold (list_sum (map cols (firstn i (t' :: ts)))).
      match goal with |- context [Nat.ltb ?p ?q] => destruct (Nat.ltb_spec p q); [lia|] end.
      rewrite <- (Vr i u E b j Hb Hj). f_equal. f_equal. f_equal. lia.
Qed.

Lemma tail_loop_some focus B : forall sts x ys early count, activations sts x ys ->
  (forall s, In s sts -> st_normal s <> None) ->
  (forall i, i <= length sts -> exists C W, shape (ys i) = [B; C; W]) ->
  tail_loop sts focus x early count = Ok (ys (length sts),
    early ++ map (fun i => flat_tail (nth (count + i) focus 0%Z) (ys (S i))) (seq 0 (Nat.min (length sts) (length focus - count)))).
Proof.
  induction sts as [|s sts IH]; intros x ys early count (Y0 & Act) Nn Sh; cbn [tail_loop length].
  - cbn. now rewrite app_nil_r, Y0.
  - destruct (Act 0 s eq_refl) as (z & Ez & Nz). rewrite <- Y0, Ez. cbn [rbind].
    destruct (st_normal s) as [f|] eqn:En; [|exfalso; apply (Nn s); [now left|exact En]]. rewrite Nz. cbn [rbind].
    assert (Act1 : activations sts (ys 1) (fun i => ys (S i))) by (split; [reflexivity|]; intros i s' Hs'; exact (Act (S i) s' Hs')).
    assert (Nn1 : forall s', In s' sts -> st_normal s' <> None) by (intros; apply Nn; now right).
    assert (Sh1 : forall i, i <= length sts -> exists C W, shape (ys (S i)) = [B; C; W]) by (intros i Hi; apply Sh; cbn; lia).
    destruct (Nat.ltb_spec count (length focus)).
    + unfold py_get. rewrite (nth_error_nth' focus 0%Z) by assumption. cbn [rbind].
      destruct (Sh1 0 ltac:(lia)) as (C & W & S1). destruct (flat_tail_ok (nth count focus 0%Z) (ys 1) B C W S1) as (E & _).
      assert (E' : forall k, rbind (tail_of (nth count focus 0%Z) (ys 1)) (fun t => rbind (flatten1 t) k) = k (flat_tail (nth count focus 0%Z) (ys 1)) :> res (tensor R * list (tensor R))).
      { intros k. destruct (tail_of (nth count focus 0%Z) (ys 1)) as [t|e]; cbn [rbind] in *; [|discriminate]. now rewrite E. }
      rewrite E', (IH _ _ _ _ Act1 Nn1 Sh1). f_equal. f_equal. rewrite <- app_assoc. f_equal.
      replace (length focus - count) with (S (length focus - (count + 1))) by lia. cbn [Nat.min seq map app]. rewrite Nat.add_0_r. f_equal.
      rewrite <- seq_shift, map_map. apply map_ext. intros i. now replace (count + 1 + i) with (count + S i) by lia.
    + rewrite (IH _ _ _ _ Act1 Nn1 Sh1). f_equal. f_equal. f_equal. replace (length focus - count) with 0 by lia. now rewrite !Nat.min_0_r.
Qed.
Lemma tail_loop_none focus : forall sts x ys early count, activations sts x ys ->
  (forall s, In s sts -> st_normal s = None) -> tail_loop sts focus x early count = Ok (ys (length sts), early).
Proof.
  induction sts as [|s sts IH]; intros x ys early count (Y0 & Act) Nn; cbn [tail_loop length]; [now rewrite Y0|].
  destruct (Act 0 s eq_refl) as (z & Ez & Nz). rewrite <- Y0, Ez. cbn [rbind]. rewrite (Nn s) in * by (now left). rewrite <- Nz.
  apply (IH _ (fun i => ys (S i))); [|intros; apply Nn; now right]. split; [reflexivity|]. intros i s' Hs'. exact (Act (S i) s' Hs').
Qed.

Lemma nth_repeat_lt {A} (v d : A) n i : i < n -> nth i (repeat v n) d = v.
Proof. intros H. rewrite (nth_indep _ d v) by (now rewrite repeat_length). apply nth_repeat. Qed.
(** The list [self.focus] of the object. *)
Lemma held_focus a focus m : held_tail a (Some focus) m ->
  exists fl, tl_focus m = Some fl /\ length fl = foci a focus /\ forall i, i < length fl -> nth i fl 0%Z = focus_of focus i.
Proof.
  intros (_ & u & draw & m0 & E & _ & _ & _ & F). unfold new_tail_net in E.
  destruct (cn_stages _ _ _) as [st|]; cbn [rbind] in E; [|discriminate]. injection E as <-. rewrite F. cbn [tl_focus].
  destruct focus as [f|l]; cbn [scalar_to_list]; eexists; (split; [reflexivity|]); cbn [foci focus_of entry].
  - split; [apply repeat_length|]. intros i Hi. rewrite repeat_length in Hi. now apply nth_repeat_lt.
  - auto.
Qed.

(** The output: the tails of the input and of the activations of the first layers, then the whole last activation, in this order. *)
Theorem C39_forward : forall a focus m x B W, net_ok 1 a -> held_tail a (Some focus) m -> 1 <= foci a focus ->
  shape x = [B; channel a 0; W] -> net_fits a W ->
  exists ys y, activations (tl_stages m) x ys /\
    (forall i, i <= layers a -> shape (ys i) = [B; channel a i; width a i W]) /\
    tail_forward m x = Ok y /\
    shape y = [B; offset a focus W (tails a focus) + channel a (layers a) * width a (layers a) W] /\
    (forall b i c j, b < B -> i < tails a focus -> c < channel a i -> j < kept (focus_of focus i) (width a i W) ->
       at_ y [b; offset a focus W i + (c * kept (focus_of focus i) (width a i W) + j)]
       = at_ (ys i) [b; c; width a i W - kept (focus_of focus i) (width a i W) + j]) /\
    (forall b c j, b < B -> c < channel a (layers a) -> j < width a (layers a) W ->
       at_ y [b; offset a focus W (tails a focus) + (c * width a (layers a) W + j)] = at_ (ys (layers a)) [b; c; j]).
Proof.
  intros a focus m x B W N Hm Hf Hx F. pose proof Hm as (Hh & _). destruct (held_focus a focus m Hm) as (fl & Ef & Lf & Vf).
  destruct (held_stage 1 a _ N Hh) as (Len & Hs).
  destruct (activations_exist 1 a (tl_stages m) x B [W] N Hh Hx eq_refl) as (ys & Act & Sh); [intros w [<-|[]]; exact F|]. cbn [map] in Sh.
  set (k := tails a focus).
  assert (K : 1 <= k <= layers a + 1) by (unfold k, tails; destruct (cn_normalization a); lia).
  assert (Kf : k <= length fl) by (unfold k, tails; rewrite Lf; destruct (cn_normalization a); lia).
  set (T := fun i => flat_tail (nth i fl 0%Z) (ys i)).
  assert (L : tail_loop (tl_stages m) fl x [T 0] 1 = Ok (ys (layers a), map T (seq 0 k))).
  { unfold k, tails. destruct (cn_normalization a) as [f|] eqn:En.
    - rewrite (tail_loop_some fl B _ x ys); auto.
      + rewrite Len, Lf. f_equal. f_equal. replace (Nat.min (layers a + 1) (foci a focus)) with (S (Nat.min (layers a) (foci a focus - 1))) by lia.
        cbn [seq map app]. f_equal. rewrite <- seq_shift, map_map. reflexivity.
      + intros s Hin. destruct (In_nth_error _ _ Hin) as (i & Ei). destruct (Hs i s Ei) as (_ & _ & Q). destruct (st_normal s); congruence.
      + intros i Hi. rewrite Len in Hi. rewrite (Sh i Hi). eauto.
    - rewrite (tail_loop_none fl _ x ys); auto.
      + now rewrite Len.
      + intros s Hin. destruct (In_nth_error _ _ Hin) as (i & Ei). destruct (Hs i s Ei) as (_ & _ & Q). destruct (st_normal s); [|reflexivity]. destruct Q; congruence. }
  assert (TS : forall i, i < k -> shape (T i) = [B; piece a focus W i] /\
    forall b c j, b < B -> c < channel a i -> j < kept (focus_of focus i) (width a i W) ->
      at_ (T i) [b; c * kept (focus_of focus i) (width a i W) + j] = at_ (ys i) [b; c; width a i W - kept (focus_of focus i) (width a i W) + j]).
  { intros i Hi. destruct (flat_tail_ok (nth i fl 0%Z) (ys i) B (channel a i) (width a i W) (Sh i ltac:(lia))) as (_ & S1 & V1).
    rewrite Vf in S1, V1 by lia. unfold T. rewrite Vf by lia. split; [exact S1|exact V1]. }
  destruct (flatten1_ok (ys (layers a)) B [channel a (layers a); width a (layers a) W] (Sh _ (le_n _))) as (z & Ez & Sz & Vz); [discriminate|].
  destruct (cat1_ok B (map T (seq 0 k) ++ [z])) as (y & Ey & Sy & Vy).
  { destruct (map T (seq 0 k)); discriminate. }
  { intros t Ht. apply in_app_iff in Ht. destruct Ht as [Ht|[<-|[]]].
    - apply in_map_iff in Ht. destruct Ht as (i & <- & Hi). apply in_seq in Hi. unfold cols. rewrite (proj1 (TS i ltac:(lia))). reflexivity.
    - unfold cols. rewrite Sz. reflexivity. }
  assert (Off : forall i, i <= k -> list_sum (map cols (firstn i (map T (seq 0 k) ++ [z]))) = offset a focus W i).
  { intros i Hi. rewrite firstn_app, map_length, seq_length. replace (i - k) with 0 by lia. cbn [firstn]. rewrite app_nil_r, firstn_map, map_map.
    replace (firstn i (seq 0 k)) with (seq 0 i).
    - unfold offset. f_equal. apply map_ext_in. intros j Hj. apply in_seq in Hj. unfold cols. now rewrite (proj1 (TS j ltac:(lia))).
    - replace k with (i + (k - i)) by lia. rewrite seq_app, firstn_app, seq_length, Nat.sub_diag. cbn [firstn]. rewrite app_nil_r.
      symmetry. apply firstn_all2. rewrite seq_length. lia. }
  exists ys, y. split; [exact Act|]. split; [exact Sh|].
  assert (Cz : cols z = channel a (layers a) * width a (layers a) W) by (unfold cols; rewrite Sz; cbn [nth prodn]; lia).
  split.
  { unfold tail_forward. rewrite Ef. unfold py_get. rewrite (nth_error_nth' fl 0%Z) by lia. cbn [rbind].
    destruct (flat_tail_ok (nth 0 fl 0%Z) x B _ _ Hx) as (E0 & _). destruct (tail_of (nth 0 fl 0%Z) x) as [t|]; cbn [rbind] in E0 |- *; [|discriminate].
    rewrite E0. cbn [rbind]. destruct Act as (Y0 & _). rewrite <- Y0 in L |- *. unfold T in L at 1. rewrite L. cbn [rbind fst snd]. rewrite Ez. cbn [rbind]. exact Ey. }
  split.
  { rewrite Sy. f_equal. f_equal. rewrite map_app, list_sum_app. cbn [map list_sum fold_right]. rewrite Cz.
    pose proof (Off k (le_n k)) as O. rewrite firstn_app, map_length, seq_length, Nat.sub_diag in O. cbn [firstn] in O. rewrite app_nil_r in O.
    rewrite firstn_all2 in O by (rewrite map_length, seq_length; lia). fold k. lia. }
  split.
  - intros b i c j Hb Hi Hc Hj. fold k in Hi. destruct (TS i Hi) as (S1 & V1).
    rewrite <- V1 by assumption. rewrite <- (Off i) by lia. apply Vy.
    + rewrite nth_error_app1 by (rewrite map_length, seq_length; lia). apply map_nth_error.
      rewrite (nth_error_nth' _ 0) by (rewrite seq_length; lia). now rewrite seq_nth by lia.
    + exact Hb.
    + unfold cols. rewrite S1. cbn [nth]. unfold piece. nia.
  - intros b c j Hb Hc Hj. specialize (Vz b [c; j] Hb). cbn [ravel prodn] in Vz. rewrite <- Vz by (cbn; auto). fold k. rewrite <- (Off k) by lia.
    replace (c * (width a (layers a) W * 1) + (j * 1 + 0)) with (c * width a (layers a) W + j) by lia. apply Vy.
    + rewrite nth_error_app2 by (rewrite map_length, seq_length; lia). rewrite map_length, seq_length. now replace (k - k) with 0 by lia.
    + exact Hb.
    + rewrite Cz. nia.
Qed.
Print Assumptions C39_forward.

Lemma ceil_positions w k s : 1 <= k -> k <= w -> 1 <= s ->
  ceil_div (Z.of_nat w - Z.of_nat k + 1) s = Ok (Z.of_nat ((w - k) / s + 1)).
Proof.
  intros Hk Hw Hs. unfold ceil_div. destruct (Nat.eqb_spec s 0); [lia|]. f_equal.
  rewrite Nat2Z.inj_add, Nat2Z.inj_div, Nat2Z.inj_sub by lia.
  set (q := ((Z.of_nat w - Z.of_nat k) / Z.of_nat s)%Z).
  pose proof (Z.div_mod (Z.of_nat w - Z.of_nat k) (Z.of_nat s) ltac:(lia)) as D. fold q in D.
  pose proof (Z.mod_pos_bound (Z.of_nat w - Z.of_nat k) (Z.of_nat s) ltac:(lia)) as M.
  set (r := ((Z.of_nat w - Z.of_nat k) mod Z.of_nat s)%Z) in *.
  rewrite <- (Z.div_unique_pos (- (Z.of_nat w - Z.of_nat k + 1)) (Z.of_nat s) (- q - 1) (Z.of_nat s - r - 1)); lia.
Qed.

Lemma held_stride a focus m st : held_tail a focus m -> cn_stride a = Some st -> net_ok 1 a -> length (cn_kernel_size a) = layers a ->
  exists sl, tl_stride m = Some sl /\ forall i, i < layers a -> nth_error sl i = Some (a_stride (layer_args a i)).
Proof.
  intros (_ & u & draw & m0 & E & _ & _ & St & _) Es (_ & G) Lk. unfold new_tail_net in E.
  destruct (cn_stages _ _ _) as [sts|]; cbn [rbind] in E; [|discriminate]. injection E as <-. rewrite St. cbn [tl_stride].
  rewrite Es. destruct st as [v|l]; cbn [scalar_to_list]; eexists; (split; [reflexivity|]); intros i Hi; cbn [layer_args a_stride]; rewrite Es; cbn [entry].
  - rewrite (nth_error_nth' _ 0) by (rewrite repeat_length; lia). f_equal. apply nth_repeat_lt. lia.
  - destruct (G i Hi) as (Gi & _). assert (S1 : 1 <= a_stride (layer_args a i)) by (unfold good_args in Gi; tauto).
    cbn [layer_args a_stride] in S1. rewrite Es in S1. cbn [entry] in S1. apply nth_error_nth'.
    destruct (Nat.lt_ge_cases i (length l)); [assumption|]. rewrite nth_overflow in S1 by assumption. lia.
Qed.

Lemma widths_ok a sl W : net_ok 1 a -> net_fits a W -> cn_padding a = 0 ->
  (forall i, i < layers a -> nth_error sl i = Some (a_stride (layer_args a i))) ->
  forall ks i, i + length ks = layers a -> (forall j, j < length ks -> nth j ks 0 = nth (i + j) (cn_kernel_size a) 0) ->
  widths_from (Some sl) (Z.of_nat (width a i W)) ks i = Ok (map (fun j => Z.of_nat (width a j W)) (seq (S i) (length ks))).
Proof.
  intros (_ & G) F P St. induction ks as [|k ks IH]; intros i Hi Hk; [reflexivity|]. cbn [length] in *.
  cbn [widths_from]. unfold py_get. rewrite St by lia. cbn [rbind].
  assert (Ek : k = a_kernel (layer_args a i)) by (specialize (Hk 0 ltac:(lia)); cbn in Hk; rewrite Nat.add_0_r in Hk; exact Hk).
  destruct (G i ltac:(lia)) as (Gi & _). pose proof (F i ltac:(lia)) as Fi. unfold good_args in Gi. unfold fits in Fi.
  cbn [layer_args a_dilation a_padding] in Fi. rewrite P in Fi.
  assert (K1 : 1 <= a_kernel (layer_args a i)) by tauto. assert (S1 : 1 <= a_stride (layer_args a i)) by tauto.
  rewrite Ek, ceil_positions by (cbn [layer_args a_kernel] in *; lia). cbn [rbind].
  assert (Ew : (width a i W - a_kernel (layer_args a i)) / a_stride (layer_args a i) + 1 = width a (S i) W).
  { cbn [width]. unfold positions. cbn [layer_args a_dilation a_padding]. rewrite P. f_equal. f_equal. cbn [layer_args a_kernel] in *. lia. }
  rewrite Ew. rewrite Nat.add_1_r, IH; [reflexivity|lia|]. intros j Hj. specialize (Hk (S j) ltac:(lia)). cbn [nth] in Hk. rewrite Hk. f_equal. lia.
Qed.

Lemma output_sizes_ok channels : forall fl i, i + length fl <= length channels ->
  output_sizes_from channels fl i = Ok (map (fun j => Z.of_nat (nth (i + j)%nat channels 0%nat) * nth j fl 0)%Z (seq 0 (length fl))).
Proof.
  induction fl as [|f fl IH]; intros i Hi; [reflexivity|]. cbn [length] in *. cbn [output_sizes_from]. unfold py_get at 1.
  rewrite (nth_error_nth' _ 0) by lia. cbn [rbind]. rewrite IH by lia. cbn [rbind seq map nth]. rewrite Nat.add_0_r. do 2 f_equal.
  rewrite <- seq_shift, map_map. apply map_ext. intros j. now replace (i + 1 + j) with (i + S j) by lia.
Qed.

(** The sizes announced by [compute_sizes]: the widths are the real ones; channels times focus for every tail. *)
Definition regular (a : cn_args) (focus : listed Z) : Prop :=
  net_ok 1 a /\ cn_stride a <> None /\ cn_padding a = 0 /\ length (cn_kernel_size a) = layers a /\ foci a focus = layers a.
Theorem C39_announced : forall a focus m W, regular a focus -> held_tail a (Some focus) m -> net_fits a W ->
  compute_sizes m (Z.of_nat W) =
    Ok (map (fun i => Z.of_nat (width a i W)) (seq 0 (layers a + 1)),
        map (fun i => (Z.of_nat (channel a i) * focus_of focus i)%Z) (seq 0 (layers a)) ++
        [Z.of_nat (channel a (layers a) * width a (layers a) W)]).
Proof.
  intros a focus m W (N & S0 & P & Lk & Lf) Hm F. destruct (cn_stride a) as [st|] eqn:Es; [|congruence].
  destruct (held_stride a _ m st Hm Es N Lk) as (sl & El & Vl). destruct (held_focus a focus m Hm) as (fl & Ef & Lfl & Vf).
  pose proof Hm as (_ & u & draw & m0 & E & Ech & Eks & _). unfold new_tail_net in E.
  destruct (cn_stages _ _ _) as [sts|]; cbn [rbind] in E; [|discriminate]. injection E as <-. cbn [tl_channels tl_kernel_size] in Ech, Eks.
  pose proof N as (C & _). assert (LL : length (cn_channels a) = layers a + 1) by (unfold layers; lia).
  unfold compute_sizes. rewrite El, Eks, Ef, Ech.
  pose proof (widths_ok a sl W N F P Vl (cn_kernel_size a) 0) as Q. cbn [width Nat.add] in Q. rewrite Q; [|exact Lk|reflexivity]. cbn [rbind].
  assert (La : last (Z.of_nat W :: map (fun j => Z.of_nat (width a j W)) (seq 1 (length (cn_kernel_size a)))) 0%Z = Z.of_nat (width a (layers a) W)).
  { rewrite Lk. destruct (layers a) as [|l] eqn:L0; [lia|]. rewrite seq_S, map_app. cbn [map].
    rewrite app_comm_cons, last_last. reflexivity. }
  rewrite La, output_sizes_ok by (rewrite app_length; cbn [length]; lia). cbn [rbind]. f_equal. f_equal.
  - rewrite Lk, Nat.add_1_r. reflexivity.
  - rewrite app_length, Lfl, Lf. cbn [length]. rewrite seq_app, map_app. f_equal.
    + apply map_ext_in. intros i Hi. apply in_seq in Hi. rewrite app_nth1 by lia. rewrite Vf by lia. reflexivity.
    + cbn [seq map Nat.add]. rewrite app_nth2, Lfl, Lf, Nat.sub_diag by lia. cbn [nth]. rewrite Nat2Z.inj_mul. reflexivity.
Qed.
Print Assumptions C39_announced.

Definition zsum (l : list Z) : Z := fold_right Z.add 0%Z l.
Lemma zsum_app l l' : zsum (l ++ l') = (zsum l + zsum l')%Z.
Proof. unfold zsum. induction l as [|z l IH]; cbn [app fold_right]; [|rewrite IH]; lia. Qed.
Lemma kept_exact f W : 1 <= W -> Z.of_nat (kept f W) = f <-> (1 <= f <= Z.of_nat W)%Z.
Proof. intros HW. unfold kept. destruct (Z.leb_spec 1 f); [lia|]. destruct (Z.eqb_spec f 0); lia. Qed.

(** With every focus between 1 and the width it is applied to, the announced sizes add up to the width of the output. *)
Theorem C39_sizes : forall a focus m x B W ws os, regular a focus -> held_tail a (Some focus) m -> cn_normalization a <> None ->
  shape x = [B; channel a 0; W] -> net_fits a W ->
  (forall i, i < layers a -> (1 <= focus_of focus i <= Z.of_nat (width a i W))%Z) ->
  compute_sizes m (Z.of_nat W) = Ok (ws, os) ->
  exists y, tail_forward m x = Ok y /\ shape y = [B; Z.to_nat (zsum os)].
Proof.
  intros a focus m x B W ws os Rg Hm Nn Hx F Hf E. rewrite (C39_announced a focus m W Rg Hm F) in E. injection E as <- <-.
  destruct Rg as (N & S0 & P & Lk & Lf). pose proof N as (C & _).
  destruct (C39_forward a focus m x B W N Hm) as (ys & y & _ & _ & Ey & Sy & _); [unfold layers in *; lia|exact Hx|exact F|].
  exists y. split; [exact Ey|]. rewrite Sy. f_equal. f_equal.
  assert (T : tails a focus = layers a) by (unfold tails; destruct (cn_normalization a); [lia|congruence]). rewrite T.
  assert (O : forall n, n <= layers a -> zsum (map (fun i => (Z.of_nat (channel a i) * focus_of focus i)%Z) (seq 0 n)) = Z.of_nat (offset a focus W n)).
  { induction n as [|n IH]; intros Hn; [reflexivity|]. unfold offset in *. rewrite seq_S, !map_app, zsum_app, list_sum_app, IH by lia. cbn.
    unfold piece. rewrite Nat2Z.inj_add, Nat2Z.inj_add, Nat2Z.inj_mul. specialize (Hf n ltac:(lia)).
    rewrite (proj2 (kept_exact (focus_of focus n) (width a n W) ltac:(lia)) Hf). cbn. lia. }
  rewrite zsum_app, O by lia. cbn. lia.
Qed.
Print Assumptions C39_sizes.

(** Conversely, the size announced for a tail is its size only for such a focus (a focus of 0 keeps everything, one that is too
    large keeps what there is). *)
Theorem C39_announced_piece : forall a focus W i, net_ok 1 a -> net_fits a W -> cn_padding a = 0 -> i < layers a ->
  ((Z.of_nat (channel a i) * focus_of focus i)%Z = Z.of_nat (piece a focus W i) <-> (1 <= focus_of focus i <= Z.of_nat (width a i W))%Z).
Proof.
  intros a focus W i (_ & G) F P Hi. destruct (G i Hi) as (Gi & _). specialize (F i Hi). unfold fits in F. unfold good_args in Gi.
  cbn [layer_args a_in a_padding a_dilation] in *. rewrite P in F.
  assert (C1 : 1 <= channel a i) by tauto. assert (W1 : 1 <= width a i W) by lia.
  rewrite <- kept_exact by exact W1. unfold piece. rewrite Nat2Z.inj_mul. split; intros H; [|now rewrite H].
  symmetry. apply Z.mul_reg_l with (Z.of_nat (channel a i)); [lia|exact H].
Qed.
Print Assumptions C39_announced_piece.

(** Without a stride the network runs but announces nothing; without a focus it does neither. *)
Theorem C39_no_stride : forall a focus m W, held_tail a focus m -> cn_stride a = None -> cn_kernel_size a <> [] ->
  compute_sizes m W = Err TypeError.
Proof.
  intros a focus m W (_ & u & draw & m0 & E & _ & Ek & Es & _) S0 K0. unfold new_tail_net in E.
  destruct (cn_stages _ _ _) as [sts|]; cbn [rbind] in E; [|discriminate]. injection E as <-. cbn [tl_stride tl_kernel_size] in *.
  unfold compute_sizes. rewrite Es, Ek, S0. destruct (cn_kernel_size a); [contradiction|reflexivity].
Qed.
Print Assumptions C39_no_stride.
Theorem C39_no_focus : forall a m x, held_tail a None m -> tail_forward m x = Err TypeError.
Proof.
  intros a m x (_ & u & draw & m0 & E & _ & _ & _ & Ef). unfold new_tail_net in E.
  destruct (cn_stages _ _ _) as [sts|]; cbn [rbind] in E; [|discriminate]. injection E as <-. cbn [tl_focus scalar_to_list] in Ef.
  unfold tail_forward. now rewrite Ef.
Qed.
Print Assumptions C39_no_focus.

(** Nor can the sizes be computed without focus. *)
Lemma widths_exist sl : forall ks i w, (forall j, j < length ks -> exists st, nth_error sl (i + j) = Some st /\ 1 <= st) ->
  exists ws, widths_from (Some sl) w ks i = Ok ws.
Proof.
  induction ks as [|k ks IH]; intros i w H; [now exists []|]. cbn [length widths_from] in *.
  destruct (H 0 ltac:(lia)) as (st & E & S1). rewrite Nat.add_0_r in E. unfold py_get. rewrite E. cbn [rbind]. unfold ceil_div.
  destruct (Nat.eqb_spec st 0); [lia|]. cbn [rbind]. set (nw := (- _)%Z).
  destruct (IH (i + 1) nw) as (ws & ->); [|cbn; eauto]. intros j Hj. rewrite <- Nat.add_assoc. apply (H (1 + j)). lia.
Qed.
Theorem C39_no_focus_sizes : forall a m W, net_ok 1 a -> cn_stride a <> None -> length (cn_kernel_size a) = layers a -> held_tail a None m ->
  compute_sizes m W = Err TypeError.
Proof.
  intros a m W N S0 Lk Hm. destruct (cn_stride a) as [st|] eqn:Es; [|congruence].
  destruct (held_stride a _ m st Hm Es N Lk) as (sl & El & Vl). pose proof Hm as (_ & u & draw & m0 & E & _ & Eks & _ & Ef). unfold new_tail_net in E.
  destruct (cn_stages _ _ _) as [sts|]; cbn [rbind] in E; [|discriminate]. injection E as <-. cbn [tl_kernel_size tl_focus scalar_to_list] in *.
  unfold compute_sizes. rewrite El, Eks, Ef. destruct N as (_ & G). destruct (widths_exist sl (cn_kernel_size a) 0 W) as (ws & ->); [|reflexivity].
  intros j Hj. exists (a_stride (layer_args a j)). split; [apply Vl; lia|]. destruct (G j ltac:(lia)) as (Gi & _). unfold good_args in Gi. tauto.
Qed.
Print Assumptions C39_no_focus_sizes.

(** A three layer network with a normalisation that does nothing.  W = 20 gives widths 20, 9, 8, 3. *)
Definition demo_tail : cn_args := mkCN (Some (Scalar "polynomial1d"%string)) (Some (Scalar 3)) [2; 4; 3; 5] (Some (Scalar 2)) [3; 2; 4]
  false None (Some (fun _ x => Ok x)) (Some (Listed [2; 1; 2])) 0.
Lemma demo_tail_ok : net_ok 1 demo_tail.
Proof.
  split; [cbn; lia|]. intros i Hi. cbn in Hi. split; [unfold good_args; destruct i as [|[|[|i]]]; cbn; lia|]. exists PolynomialConv. cbn. auto 10.
Qed.
Example C39_case : exists m y, held_tail demo_tail (Some (Listed [4; 3; 2]%Z)) m /\ regular demo_tail (Listed [4; 3; 2]%Z) /\ net_fits demo_tail 20 /\
  compute_sizes m 20 = Ok ([20; 9; 8; 3], [8; 12; 6; 15])%Z /\ tail_forward m (mkT [7; 2; 20] (fun _ => 1%R)) = Ok y /\ shape y = [7; 41].
Proof.
  assert (Rg : regular demo_tail (Listed [4; 3; 2]%Z)) by (split; [apply demo_tail_ok|]; repeat split; cbn; congruence || lia).
  assert (F : net_fits demo_tail 20) by (intros i Hi; unfold fits; destruct i as [|[|[|i]]]; cbn in *; lia).
  destruct (cn_stages_ok 1 demo_tail (length (cn_kernel_size demo_tail)) (fun i t c => high_order_convolution_layers t c (fun _ => 0%R) (fun _ => 0%R)) demo_tail_ok (le_n _)) as (sts & E & _).
  { intros j Hj. destruct demo_tail_ok as (_ & G). destruct (G j Hj) as (Gi & k & T). now apply (factory_ok _ 1 k). }
  assert (Bs : built_stages demo_tail sts) by (exists (fun _ _ => 0%R), (fun _ _ => 0%R); exact E).
  assert (Hm : held_tail demo_tail (Some (Listed [4; 3; 2]%Z)) (mkTail sts [2; 4; 3; 5] [3; 2; 4] (Some [2; 1; 2]) (Some [4; 3; 2]%Z))).
  { split.
    - apply (built_held 1); [apply demo_tail_ok|exact Bs|]. intros i f _ Ef. cbn in Ef. injection Ef as <-. intros x _. eauto.
    - exists (fun _ _ => 0%R), (fun _ _ => 0%R). eexists. unfold new_tail_net. rewrite E. cbn [rbind]. split; [reflexivity|]. repeat split. }
  pose proof (C39_announced _ _ _ 20 Rg Hm F) as A.
  assert (Hf : forall i, i < layers demo_tail -> (1 <= focus_of (Listed [4; 3; 2]) i <= Z.of_nat (width demo_tail i 20))%Z).
  { intros i Hi. cbn in Hi. destruct i as [|[|[|i]]]; cbn; lia. }
  assert (Nn : cn_normalization demo_tail <> None) by discriminate.
  destruct (C39_sizes demo_tail _ _ (mkT [7; 2; 20] (fun _ => 1%R)) 7 20 _ _ Rg Hm Nn eq_refl F Hf A) as (y & Ey & Sy).
  eexists. exists y. split; [exact Hm|]. split; [exact Rg|]. split; [exact F|]. split; [exact A|]. split; [exact Ey|exact Sy].
Qed.
