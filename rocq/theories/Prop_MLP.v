(** * Widths, depth, ignored arguments and parameters of networks: C42 - C45. *)
From Coq Require Import String Reals Lra ZArith List Lia Bool Arith.
From Verif Require Import Spec Tensor Utils LagrangePolynomial Basis PolynomialLayers Refine ProductLayer LagrangeND Rotation Layers Networks
  Observe ObserveNet TensorFacts LayerFacts SegmentFacts LayerProofs RefineFacts HeapFacts NetFacts NetCopy NetTypes Prop_Rotation.
Import ListNotations.
Local Open Scope R_scope.
Local Open Scope nat_scope.

Lemma typed_maps h k W W' : wf_heap h -> typed h k W W' -> maps_width h k W W'.
Proof. intros Wf (_ & T) h' R x B Hx. apply T; auto. now apply later_retrained. Qed.

(** ** C43: widths and depth *)

(** HighOrderMLP, any depth, with or without residual connections, normalisation, activation and dropout: it can be
    built, leaves existing objects alone, has one input layer, the hidden layers and one output layer, and maps
    [batch, in_width] to [batch, out_width] whatever the weights. *)
Theorem C43_mlp_widths : forall g a h, wf_heap h -> flat_mlp h a ->
  exists net e, HighOrderMLP g a h = Ok (net, h ++ e) /\
    length (network_layers (h ++ e) net) = ma_hidden_layers a + 2 /\
    maps_width (h ++ e) net (ma_in_width a) (ma_out_width a).
Proof.
  intros g a h W F. destruct (mlp_typed g a h W F) as (net & e & E & We & T & C).
  exists net, e. split; auto. split; auto. now apply typed_maps.
Qed.
Print Assumptions C43_mlp_widths.

(** A residual network with dropout, a tanh activation and a product layer type. *)
Example C43_case :
  let a := mkMLP "continuous_prod" (Int 3) 2 5 4 7 2 None None (Some (Int 2)) true (Some 2%R) (Some 0)
             (Some (Int 1)) (Some (Int 2)) (Some (Int 3)) (Some ((fun x => Ok x), []))
             true (Some "switch_continuous"%string) "uniform" (1/2) in
  let h := [OModule (fun x => Ok (tmap Ratan.atan x)) []] in
  exists net e, HighOrderMLP (fun k _ => INR k) a h = Ok (net, h ++ e) /\
    length (network_layers (h ++ e) net) = 6 /\ maps_width (h ++ e) net 2 5.
Proof.
  cbv zeta. apply (C43_mlp_widths (fun k _ => INR k)).
  - intros [|i] Hi j Hj; [destruct Hj|cbn in Hi; lia].
  - constructor; cbn; try lra; try lia.
    + right. right. split; [cbn; tauto|]. exists 3, 1. auto with arith.
    + right. right. right. split; [cbn; tauto|]. exists 2, 3. auto with arith.
    + right. right. split; [cbn; tauto|]. exists 3, 2. auto with arith.
    + intros f ps E. injection E as <- _. intros x B Hx. eauto.
    + intros k E. injection E as <-. split; [lia|]. eexists _, _. split; [reflexivity|]. intros x B Hx. eexists. split; reflexivity.
Qed.

(** LowOrderMLP likewise. *)
Lemma makes_linear q g h I O : wf_heap h -> makesq q (Linear g I O) h I O.
Proof.
  intros W. eexists _, _. split; [reflexivity|]. rewrite get_last. split; [apply wf_snoc; auto; now cbn|]. split; [|reflexivity].
  eapply typed_linear; [apply get_last|rewrite app_length; cbn; lia|reflexivity].
Qed.
Lemma typed_act {q} h h' k W : later h h' -> typedq q h k W W /\ is_layer (get h k) = false -> typedq q h' k W W /\ is_layer (get h' k) = false.
Proof.
  intros R (T & E). split; [eapply typed_later; eauto|]. destruct R as (_ & _ & R). specialize (R k (proj1 T)).
  destruct (get h k); try discriminate. inversion R. reflexivity.
Qed.
Lemma low_typed q g W nm nl n : (forall f ps, nm = Some (f, ps) -> good q W W f) -> forall h L W0 c, stateq q h L W0 W c ->
  (forall k, nl = Some k -> typedq q h k W W /\ is_layer (get h k) = false) ->
  exists L' e, low_hidden g W nm nl n L h = Ok (L', h ++ e) /\ later h (h ++ e) /\ stateq q (h ++ e) L' W0 W (c + n).
Proof.
  intros Hn. induction n as [|n IH]; intros h L W0 c St Ha.
  - exists L, []. rewrite app_nil_r. split; [reflexivity|]. split; [|now rewrite Nat.add_0_r].
    replace h with (h ++ []) at 2 by apply app_nil_r. apply later_app. rewrite app_nil_r. apply St.
  - destruct (makes_betweenq q nm nl W h (proj1 St) Hn Ha) as (b & e1 & E1 & W1 & T1 & B1). assert (Lt1 := later_app _ _ W1).
    cbn [low_hidden]. rewrite (mthen_ok _ _ _ _ _ E1).
    destruct (makes_linear q g (h ++ e1) W W W1) as (k & e2 & E2 & W2 & T2 & Y2). rewrite (mthen_ok _ _ _ _ _ E2).
    assert (Lt2 := later_app _ _ W2).
    assert (S2 : stateq q ((h ++ e1) ++ e2) (L ++ b ++ [k]) W0 W (c + 1)).
    { eapply (state_app h); [eapply later_trans; eauto|exact St| |].
      - eapply typed_list_app; [eapply typed_list_later; eauto|now apply typed_list_one].
      - rewrite filter_app. rewrite (count_later (h ++ e1)); auto; [|intros j Hj; eapply typed_list_lt; eauto].
        rewrite count_none by (intros j Hj; now apply B1). cbn. now rewrite Y2. }
    destruct (IH _ _ _ _ S2) as (L' & e3 & E3 & Lt3 & S3).
    { intros j Hj. eapply typed_act; [exact Lt2|]. eapply typed_act; [exact Lt1|]. now apply Ha. }
    exists L', (e1 ++ e2 ++ e3). rewrite E3. rewrite !app_assoc. split; auto.
    split; [eapply later_trans; [exact Lt1|]; eapply later_trans; eauto|]. now replace (c + S n) with (c + 1 + n) by lia.
Qed.

Lemma low_order_typedq q g win wout depth wh nl nm h : wf_heap h ->
  (forall f ps, nm = Some (f, ps) -> good q wh wh f) ->
  (forall k, nl = Some k -> k < length h /\ exists f ps, get h k = OModule f ps /\ good q wh wh f) ->
  exists net e, LowOrderMLP g win wout depth wh nl nm h = Ok (net, h ++ e) /\
    length (network_layers (h ++ e) net) = depth + 2 /\
    wf_heap (h ++ e) /\ typedq q (h ++ e) net win wout.
Proof.
  intros W Hn Ha. unfold LowOrderMLP.
  assert (Ha0 : forall k, nl = Some k -> typedq q h k wh wh /\ is_layer (get h k) = false).
  { intros k Hk. destruct (Ha k Hk) as (Lk & f & ps & Ek & P). split; [|now rewrite Ek]. eapply typed_moduleq; eauto. }
  destruct (makes_linear q g h win wh W) as (k1 & e1 & E1 & W1 & T1 & Y1). rewrite (mthen_ok _ _ _ _ _ E1).
  assert (Lt1 := later_app _ _ W1). set (h1 := h ++ e1) in *.
  destruct (low_typed q g wh nm nl depth Hn h1 [k1] win 1) as (L & e2 & E2 & Lt2 & S2).
  { split; auto. split; [now apply typed_list_one|]. cbn. now rewrite Y1. }
  { intros k Hk. eapply typed_act; eauto. }
  rewrite (mthen_ok _ _ _ _ _ E2). set (h2 := h1 ++ e2) in *.
  destruct (makes_betweenq q nm nl wh h2 (proj1 Lt2) Hn) as (b & e3 & E3 & W3 & T3 & B3).
  { intros k Hk. eapply typed_act; [exact Lt2|]. eapply typed_act; eauto. }
  rewrite (mthen_ok _ _ _ _ _ E3). assert (Lt3 := later_app _ _ W3). set (h3 := h2 ++ e3) in *.
  destruct (makes_linear q g h3 wh wout W3) as (k2 & e4 & E4 & W4 & T4 & Y4). rewrite (mthen_ok _ _ _ _ _ E4).
  assert (Lt4 := later_app _ _ W4). set (h4 := h3 ++ e4) in *.
  assert (S4 : stateq q h4 (L ++ b ++ [k2]) win wout (depth + 2)).
  { replace (depth + 2) with (1 + depth + 1) by lia. eapply (state_app h2); [eapply later_trans; eauto|exact S2| |].
    - eapply typed_list_app; [eapply typed_list_later; eauto|now apply typed_list_one].
    - rewrite filter_app. rewrite (count_later h3); auto; [|intros j Hj; eapply typed_list_lt; eauto].
      rewrite count_none by (intros j Hj; now apply B3). cbn. now rewrite Y4. }
  destruct S4 as (_ & TL & C). set (ls := L ++ b ++ [k2]) in *.
  unfold mthen, alloc. cbv beta iota zeta. set (h5 := h4 ++ [OSequential ls]). set (om := OModel (length h4)).
  assert (W5 : wf_heap h5). { apply wf_snoc; auto. cbn. intros j Hj. eapply typed_list_lt; eauto. }
  assert (W6 : wf_heap (h5 ++ [om])). { apply wf_snoc; auto. intros j [<-|[]]. unfold h5. rewrite app_length. cbn. lia. }
  eexists _, (e1 ++ e2 ++ e3 ++ e4 ++ [OSequential ls] ++ [om]).
  assert (A : h ++ e1 ++ e2 ++ e3 ++ e4 ++ [OSequential ls] ++ [om] = h5 ++ [om])
    by (unfold h5, h4, h3, h2, h1; now rewrite !app_assoc).
  rewrite A. split; [reflexivity|].
  assert (Gm : get (h5 ++ [om]) (length h4) = OSequential ls).
  { rewrite get_app_l by (unfold h5; rewrite app_length; cbn; lia). apply get_last. }
  assert (Lt5 : later h4 (h5 ++ [om])).
  { eapply later_trans; [apply (later_app h4 [OSequential ls] W5)|]. now apply later_app. }
  split.
  - unfold network_layers, model_of. rewrite get_last. unfold om at 1. rewrite Gm. rewrite <- C.
    rewrite (count_later h4 (h5 ++ [om])); auto. intros k Hk. eapply typed_list_lt; eauto.
  - split; [exact W6|]. apply typed_good; [rewrite app_length; cbn; lia|]. intros h' R.
    assert (Q : get h' (length h5) = om).
    { destruct R as (_ & _ & R). specialize (R (length h5)). rewrite get_last, app_length in R. cbn in R. specialize (R ltac:(lia)).
      inversion R; auto. }
    rewrite Q. cbn. assert (T : typedq q (h5 ++ [om]) (length h4) win wout).
    { eapply typed_sequential; [unfold h5; rewrite !app_length; cbn; lia|exact Gm|]. eapply typed_list_later; eauto. }
    now apply (proj2 T).
Qed.
Lemma low_order_typed g win wout depth wh nl nm h : wf_heap h ->
  (forall f ps, nm = Some (f, ps) -> on_width wh f) ->
  (forall k, nl = Some k -> k < length h /\ exists f ps, get h k = OModule f ps /\ on_width wh f) ->
  exists net e, LowOrderMLP g win wout depth wh nl nm h = Ok (net, h ++ e) /\
    length (network_layers (h ++ e) net) = depth + 2 /\
    wf_heap (h ++ e) /\ typed (h ++ e) net win wout.
Proof.
  intros W Hn Ha. apply low_order_typedq; auto.
  - intros f ps E. apply on_width_maps. exact (Hn f ps E).
  - intros k E. destruct (Ha k E) as (L & f & ps & G & P). split; auto. exists f, ps. split; auto. now apply on_width_maps.
Qed.
Theorem C43_low_order_widths : forall g win wout depth wh nl nm h, wf_heap h ->
  (forall f ps, nm = Some (f, ps) -> on_width wh f) ->
  (forall k, nl = Some k -> k < length h /\ exists f ps, get h k = OModule f ps /\ on_width wh f) ->
  exists net e, LowOrderMLP g win wout depth wh nl nm h = Ok (net, h ++ e) /\
    length (network_layers (h ++ e) net) = depth + 2 /\
    maps_width (h ++ e) net win wout.
Proof.
  intros g win wout depth wh nl nm h W Hn Ha. destruct (low_order_typed g win wout depth wh nl nm h W Hn Ha) as (net & e & E & C & We & T).
  exists net, e. split; [exact E|]. split; [exact C|]. now apply typed_maps.
Qed.
Print Assumptions C43_low_order_widths.

Example C43_low_order_case : exists net e,
  LowOrderMLP (fun k _ => INR k) 3 2 4 5 None None [] = Ok (net, [] ++ e) /\
  length (network_layers ([] ++ e) net) = 6 /\ maps_width ([] ++ e) net 3 2.
Proof. apply (C43_low_order_widths (fun k _ => INR k) 3 2 4 5 None None []); try discriminate. intros i Hi. cbn in Hi. lia. Qed.

(** HighOrderMLPList builds only its first layer: the output has the second of the given widths, however many layers
    were asked for. *)
Theorem C43_mlp_list_first_layer_only : forall g lts ns ws ss sc ro per h lt n w0 w1 s lts' ns' ws' ss',
  wf_heap h ->
  lts = lt :: lts' -> ns = n :: ns' -> ws = w0 :: w1 :: ws' -> ss = s :: ss' -> length ws = length lts + 1 ->
  flat_layer lt (Int n) (Some (Int s)) -> 1 <= w0 -> 1 <= w1 ->
  exists net e, HighOrderMLPList g lts ns ws ss sc ro per h = Ok (net, h ++ e) /\
    length (network_layers (h ++ e) net) = 1 /\
    maps_width (h ++ e) net w0 w1.
Proof.
  intros g lts ns ws ss sc ro per h lt n w0 w1 s lts' ns' ws' ss' W -> -> -> -> Hlen F H0 H1.
  unfold HighOrderMLPList. cbn [length] in *. rewrite (proj2 (Nat.eqb_eq _ _) Hlen). cbn [negb].
  destruct (makes_flat g h lt (Int n) w0 w1 (Some (Int s)) per sc ro "" W F H0 H1) as (k & e1 & E1 & W1 & T1 & Y1).
  cbn [lookup nth_error]. do 5 (erewrite (mthen_ok (mlift (Ok _)) _ h _ h) by reflexivity). rewrite (mthen_ok _ _ _ _ _ E1).
  set (h1 := h ++ e1) in *. unfold mthen, alloc. cbv beta iota zeta. set (h2 := h1 ++ [OSequential [k]]). set (om := OModel (length h1)).
  assert (W2 : wf_heap h2). { apply wf_snoc; auto. intros j [<-|[]]. exact (proj1 T1). }
  assert (W3 : wf_heap (h2 ++ [om])). { apply wf_snoc; auto. intros j [<-|[]]. unfold h2. rewrite app_length. cbn. lia. }
  eexists _, (e1 ++ [OSequential [k]] ++ [om]).
  assert (A : h ++ e1 ++ [OSequential [k]] ++ [om] = h2 ++ [om]) by (unfold h2, h1; now rewrite !app_assoc).
  rewrite A. split; [reflexivity|].
  assert (Gm : get (h2 ++ [om]) (length h1) = OSequential [k]).
  { rewrite get_app_l by (unfold h2; rewrite app_length; cbn; lia). apply get_last. }
  assert (Lt : later h1 (h2 ++ [om])).
  { eapply later_trans; [apply (later_app h1 [OSequential [k]] W2)|]. now apply later_app. }
  split.
  - unfold network_layers, model_of. rewrite get_last. unfold om at 1. rewrite Gm.
    rewrite (count_later h1 (h2 ++ [om])); auto; [cbn; now rewrite Y1|]. intros j [<-|[]]. exact (proj1 T1).
  - apply typed_maps; auto. apply typed_intro; [rewrite app_length; cbn; lia|]. intros h' R x B Hx.
    assert (Q : get h' (length h2) = om).
    { destruct R as (_ & _ & R). specialize (R (length h2)). rewrite get_last, app_length in R. cbn in R. specialize (R ltac:(lia)).
      inversion R; auto. }
    rewrite Q. cbn. assert (T : typed (h2 ++ [om]) (length h1) w0 w1).
    { eapply typed_sequential; [unfold h2; rewrite !app_length; cbn; lia|exact Gm|]. apply typed_list_one. eapply typed_later; eauto. }
    now apply (proj2 T).
Qed.
Print Assumptions C43_mlp_list_first_layer_only.

Example C43_mlp_list_case : exists net e,
  HighOrderMLPList (fun k _ => INR k) ["continuous"; "polynomial"]%string [3; 4] [1; 2; 5] [2; 2] 2 false None [] = Ok (net, [] ++ e) /\
  length (network_layers ([] ++ e) net) = 1 /\ maps_width ([] ++ e) net 1 2.
Proof.
  eapply (C43_mlp_list_first_layer_only (fun k _ => INR k)); try reflexivity; try lia; [intros i Hi; cbn in Hi; lia|].
  right. right. split; [cbn; tauto|]. exists 3, 2. auto with arith.
Qed.

(** So a list of two or more layer types does not give the last of the widths. *)
Theorem C43_mlp_list_refuted : exists lts ns ws ss net h,
  length lts = 2 /\ length ns = 2 /\ length ws = 3 /\ length ss = 2 /\
  HighOrderMLPList (fun k _ => INR k) lts ns ws ss 2 false None [] = Ok (net, h) /\
  forall x B, shape x = [B; hd 0 ws] -> exists y, call h net x = Ok y /\ shape y <> [B; last ws 0].
Proof.
  destruct C43_mlp_list_case as (net & e & E & _ & Mp).
  exists ["continuous"; "polynomial"]%string, [3; 4], [1; 2; 5], [2; 2], net, ([] ++ e).
  do 4 (split; [reflexivity|]). split; [exact E|]. intros x B Hx.
  destruct (Mp _ (retrained_refl _) x B Hx) as (y & Ey & Sy). exists y. split; auto. rewrite Sy. cbn. congruence.
Qed.
Print Assumptions C43_mlp_list_refuted.

(** HighOrderMultiMLP: no call of its constructor ever returns, whatever python's recursion limit. *)
Theorem C43_multi_mlp_never_built : forall limit g a replicas h, exists e, HighOrderMultiMLP limit g a replicas h = Err e.
Proof.
  intros [|limit] g a replicas h; cbn [HighOrderMultiMLP]; [eexists; reflexivity|].
  destruct (Rlt_dec (ma_dropout a) 0); [eexists; reflexivity|]. destruct (Rlt_dec 1 (ma_dropout a)); [eexists; reflexivity|].
  unfold mthen at 1 2 3 4 5 6.
  repeat match goal with |- exists e, match ?m with Ok _ => _ | Err _ => _ end = Err e => destruct m as [(?, ?)|e]; [cbv beta|exists e; reflexivity] end.
  unfold mthen. repeat match goal with |- exists e, match ?m with Ok _ => _ | Err _ => _ end = Err e => destruct m as [(?, ?)|e]; [cbv beta|exists e; reflexivity] end.
  eexists. reflexivity.
Qed.
Print Assumptions C43_multi_mlp_never_built.

(** transform_mlp: the fixed rotation in front widens the input and the network is built for that width. *)
Lemma typed_module' h k f ps W W' : k < length h -> get h k = OModule f ps ->
  (forall x B, shape x = [B; W] -> exists y, f x = Ok y /\ shape y = [B; W']) -> typed h k W W'.
Proof.
  intros H E P. apply typed_intro; auto. intros h' R x B Hx.
  assert (Q : get h' k = OModule f ps). { destruct R as (_ & _ & R). specialize (R k H). rewrite E in R. inversion R; auto. }
  rewrite Q. cbn. now apply P.
Qed.

Theorem C43_transform_widths : forall g a rotations h, wf_heap h -> flat_mlp h a -> ma_layer_type_in a = None ->
  (1 <= rotations)%Z ->
  exists net e, transform_mlp g a rotations h = Ok (net, h ++ e) /\
    maps_width (h ++ e) net (ma_in_width a) (ma_out_width a).
Proof.
  intros g a rot h W F Hti Hr. assert (Fw := fm_widths _ _ F). unfold transform_mlp, fixed_rotation_layer.
  destruct (Z.ltb_spec rot 1) as [C|_]; [lia|]. unfold mthen at 1, mlift at 1.
  set (wt := tensor_of_rows _ _). set (width := (_ + _)%Z).
  assert (Hw : shape wt = [Z.to_nat width; ma_in_width a]).
  { unfold wt, tensor_of_rows. cbn [shape]. rewrite combos_length. f_equal.
    assert (Ez : (Z.of_nat (ma_in_width a + ma_in_width a * (ma_in_width a - 1) * (Z.to_nat rot - 1)) = width)%Z).
    { unfold width. destruct (ma_in_width a); [cbn; lia|]. nia. }
    rewrite <- Ez. now rewrite Nat2Z.id. }
  assert (Hw1 : 1 <= Z.to_nat width).
  { unfold width. assert (0 <= Z.of_nat (ma_in_width a) * (Z.of_nat (ma_in_width a) - 1) * (rot - 1))%Z; [|lia].
    repeat apply Z.mul_nonneg_nonneg; lia. }
  unfold mthen at 1, alloc at 1. set (f := OModule (linear_forward wt) []). set (h1 := h ++ [f]).
  assert (W1 : wf_heap h1) by (apply wf_snoc; auto; now cbn).
  match goal with |- context [HighOrderMLP g ?a'] => set (a2 := a') end.
  assert (F2 : flat_mlp h1 a2).
  { destruct F. constructor; unfold a2; cbn; auto; try lra; try lia; try discriminate. rewrite Hti in fm_in. exact fm_in. }
  destruct (mlp_typed g a2 h1 W1 F2) as (k & e & E & We & T & _). rewrite (mthen_ok _ _ _ _ _ E).
  unfold alloc. set (h2 := h1 ++ e) in *. set (m := OSequential [length h; k]).
  eexists _, ([f] ++ e ++ [m]). assert (A : h ++ [f] ++ e ++ [m] = h2 ++ [m]) by (unfold h2, h1; now rewrite !app_assoc).
  rewrite A. split; [reflexivity|].
  assert (L1 : length h < length h2) by (unfold h2, h1; rewrite !app_length; cbn; lia).
  assert (W3 : wf_heap (h2 ++ [m])). { apply wf_snoc; auto. intros j [<-|[<-|[]]]; [exact L1|exact (proj1 T)]. }
  apply typed_maps; auto. eapply typed_sequential; [rewrite app_length; cbn; lia|apply get_last|].
  econstructor; [|apply typed_list_one; eapply typed_later; [now apply later_app|exact T]].
  eapply typed_module'; [rewrite app_length; lia| |].
  - rewrite get_app_l by exact L1. unfold h2. rewrite get_app_l by (unfold h1; rewrite app_length; cbn; lia). apply get_last.
  - intros x B Hx. unfold linear_forward. rewrite Hx, Hw, Nat.eqb_refl. eexists. split; reflexivity.
Qed.
Print Assumptions C43_transform_widths.

Example C43_transform_case :
  let a := mkMLP "discontinuous" (Int 3) 2 5 4 7 2 None None None false None None
             (Some (Int 1)) (Some (Int 2)) (Some (Int 3)) None true None "constant_random" 0 in
  exists net e, transform_mlp (fun k _ => INR k) a 3 [] = Ok (net, [] ++ e) /\ maps_width ([] ++ e) net 2 5.
Proof.
  cbv zeta. match goal with |- context [transform_mlp _ ?a' _] => set (a := a') end.
  apply (C43_transform_widths (fun k _ => INR k) a 3 []); try reflexivity; try lia; [intros i Hi; cbn in Hi; lia|].
  unfold a. constructor; cbn; try lra; try lia; try discriminate.
  - right. right. split; [cbn; tauto|]. exists 3, 1. auto with arith.
  - right. right. right. split; [cbn; tauto|]. exists 3, 3. auto with arith.
  - right. right. split; [cbn; tauto|]. exists 3, 2. auto with arith.
Qed.

(** transform_low_mlp likewise. *)
Theorem C43_transform_low_widths : forall g win wh wout depth nl nm rotations h, wf_heap h -> 1 <= win ->
  (forall f ps, nm = Some (f, ps) -> on_width wh f) ->
  (forall k, nl = Some k -> k < length h /\ exists f ps, get h k = OModule f ps /\ on_width wh f) ->
  (1 <= rotations)%Z ->
  exists net e, transform_low_mlp g win wh wout depth nl nm rotations h = Ok (net, h ++ e) /\
    maps_width (h ++ e) net win wout.
Proof.
  intros g win wh wout depth nl nm rot h W Hi Hn Ha Hr. unfold transform_low_mlp, fixed_rotation_layer.
  destruct (Z.ltb_spec rot 1) as [C|_]; [lia|]. unfold mthen at 1, mlift at 1.
  set (wt := tensor_of_rows _ _). set (width := (_ + _)%Z).
  assert (Hw : shape wt = [Z.to_nat width; win]).
  { unfold wt, tensor_of_rows. cbn [shape]. rewrite combos_length. f_equal.
    assert (Ez : (Z.of_nat (win + win * (win - 1) * (Z.to_nat rot - 1)) = width)%Z).
    { unfold width. destruct win; [cbn; lia|]. nia. }
    rewrite <- Ez. now rewrite Nat2Z.id. }
  unfold mthen at 1, alloc at 1. set (f := OModule (linear_forward wt) []). set (h1 := h ++ [f]).
  assert (W1 : wf_heap h1) by (apply wf_snoc; auto; now cbn).
  destruct (low_order_typed g (Z.to_nat width) wout depth wh nl nm h1 W1 Hn) as (k & e & E & _ & We & T).
  { intros k Hk. destruct (Ha k Hk) as (Lk & f0 & ps & Ek & P). split; [unfold h1; rewrite app_length; cbn; lia|].
    exists f0, ps. split; [|exact P]. unfold h1. now rewrite get_app_l. }
  rewrite (mthen_ok _ _ _ _ _ E). unfold alloc. set (h2 := h1 ++ e) in *. set (m := OSequential [length h; k]).
  eexists _, ([f] ++ e ++ [m]). assert (A : h ++ [f] ++ e ++ [m] = h2 ++ [m]) by (unfold h2, h1; now rewrite !app_assoc).
  rewrite A. split; [reflexivity|].
  assert (L1 : length h < length h2) by (unfold h2, h1; rewrite !app_length; cbn; lia).
  assert (W3 : wf_heap (h2 ++ [m])). { apply wf_snoc; auto. intros j [<-|[<-|[]]]; [exact L1|exact (proj1 T)]. }
  apply typed_maps; auto. eapply typed_sequential; [rewrite app_length; cbn; lia|apply get_last|].
  econstructor; [|apply typed_list_one; eapply typed_later; [now apply later_app|exact T]].
  eapply typed_module'; [rewrite app_length; lia| |].
  - rewrite get_app_l by exact L1. unfold h2. rewrite get_app_l by (unfold h1; rewrite app_length; cbn; lia). apply get_last.
  - intros x B Hx. unfold linear_forward. rewrite Hx, Hw, Nat.eqb_refl. eexists. split; reflexivity.
Qed.
Print Assumptions C43_transform_low_widths.

Example C43_transform_low_case : exists net e,
  transform_low_mlp (fun k _ => INR k) 2 7 5 3 None None 3 [] = Ok (net, [] ++ e) /\ maps_width ([] ++ e) net 2 5.
Proof.
  apply (C43_transform_low_widths (fun k _ => INR k) 2 7 5 3 None None 3 []); try discriminate; try lia. intros i Hi. cbn in Hi. lia.
Qed.
