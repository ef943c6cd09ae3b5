(** * What a LowOrderMLP computes (C118). *)
From Coq Require Import String Reals Lra ZArith List Lia Bool Arith.
From Verif Require Import Spec Tensor Utils LagrangePolynomial Basis PolynomialLayers Refine ProductLayer LagrangeND Layers Networks
  Observe ObserveNet SumFacts TensorFacts HeapFacts NetFacts NetCopy NetTypes.
Import ListNotations.
Local Open Scope R_scope.
Local Open Scope nat_scope.

(** Further linear layers, each after the normalization and the activation; a network starts with a linear layer. *)
Fixpoint stages (norm act : tensor R -> res (tensor R)) (Ws : list (tensor R * tensor R)) (x : tensor R) : res (tensor R) :=
  match Ws with
  | [] => Ok x
  | (w, b) :: Ws => x1 <- norm x ;; x2 <- act x1 ;; x3 <- Linear_forward w b x2 ;; stages norm act Ws x3
  end.
Definition perceptron (norm act : tensor R -> res (tensor R)) (Ws : list (tensor R * tensor R)) (x : tensor R) : res (tensor R) :=
  match Ws with
  | [] => Ok x
  | (w, b) :: Ws => y <- Linear_forward w b x ;; stages norm act Ws y
  end.
(** The functions of the options; None stands for the identity. *)
Definition norm_fn (nm : option norm_class) : tensor R -> res (tensor R) := match nm with Some (f, _) => f | None => fun x => Ok x end.
Definition act_fn (h : heap) (nl : option nat) : tensor R -> res (tensor R) :=
  match nl with Some k => match get h k with OModule f _ => f | _ => fun x => Ok x end | None => fun x => Ok x end.
(** Shapes of weights and biases. *)
Definition shapes_of (Ws : list (tensor R * tensor R)) : list (list nat * list nat) := map (fun wb => (shape (fst wb), shape (snd wb))) Ws.

Section Build.
Variables (g : rng) (width : nat) (nm : option norm_class) (nl : option nat) (act : tensor R -> res (tensor R)).
Definition acts : list nat := match nl with Some k => [k] | None => [] end.
Definition act_ok (h : heap) : Prop := match nl with Some k => k < length h /\ exists ps, get h k = OModule act ps | None => act = fun x => Ok x end.
Definition block (h : heap) (b : list nat) : Prop :=
  act_ok h /\ match nm with Some (f, ps) => exists k, b = k :: acts /\ k < length h /\ get h k = OModule f ps | None => b = acts end.
Definition lin (h : heap) (k : nat) (s : list nat * list nat) : Prop :=
  k < length h /\ exists w b, get h k = OLinear w b /\ (shape w, shape b) = s.
Inductive laid (h : heap) : list nat -> list nat -> list (list nat * list nat) -> Prop :=
| laid_one k s : lin h k s -> laid h [k] [k] [s]
| laid_more L ks ss b k s : laid h L ks ss -> block h b -> lin h k s -> ~ In k ks -> laid h (L ++ b ++ [k]) (ks ++ [k]) (ss ++ [s]).

Lemma act_app h e : act_ok h -> act_ok (h ++ e).
Proof. unfold act_ok. destruct nl as [k|]; auto. intros (L & ps & E). rewrite app_length, get_app_l by auto. split; [lia|eauto]. Qed.
Lemma block_app h e b : block h b -> block (h ++ e) b.
Proof.
  intros (A & B). split; [now apply act_app|]. destruct nm as [(f, ps)|]; auto. destruct B as (k & -> & L & E). exists k.
  rewrite app_length, get_app_l by auto. repeat split; auto. lia.
Qed.
Lemma lin_app h e k s : lin h k s -> lin (h ++ e) k s.
Proof. intros (L & w & b & E & S). unfold lin. rewrite app_length, get_app_l by auto. split; [lia|eauto]. Qed.
Lemma laid_app h e L ks ss : laid h L ks ss -> laid (h ++ e) L ks ss.
Proof. induction 1; constructor; auto using lin_app, block_app. Qed.

Lemma same_module h h' k f ps : retrained h h' -> k < length h -> get h k = OModule f ps -> get h' k = OModule f ps.
Proof. intros R L E. pose proof (retrained_same h h' k R L) as S. rewrite E in S. exact S. Qed.
Lemma act_rt h h' : retrained h h' -> act_ok h -> act_ok h'.
Proof.
  unfold act_ok. destruct nl as [k|]; auto. intros R (L & ps & E). split; [destruct R as (-> & _); exact L|].
  exists ps. eapply same_module; eauto.
Qed.
Lemma block_rt h h' b : retrained h h' -> block h b -> block h' b.
Proof.
  intros R (A & B). split; [eapply act_rt; eauto|]. destruct nm as [(f, ps)|]; auto. destruct B as (k & -> & L & E). exists k.
  split; auto. split; [destruct R as (-> & _); exact L|]. eapply same_module; eauto.
Qed.
Lemma lin_rt h h' k s : retrained h h' -> lin h k s -> lin h' k s.
Proof.
  intros (Ln & R) (L & w & b & E & S). split; [lia|]. specialize (R k L). rewrite E in R. inversion R as [| | | | |w0 b0 w1 b1 S1 S2 E1 E2|o E1 E2]; subst.
  - exists w1, b1. split; auto. now rewrite S1, S2.
  - exists w, b. auto.
Qed.
Lemma laid_rt h h' L ks ss : retrained h h' -> laid h L ks ss -> laid h' L ks ss.
Proof. intros R. induction 1; constructor; eauto using lin_rt, block_rt. Qed.

Lemma laid_lt h L ks ss : laid h L ks ss -> forall k, In k L -> k < length h.
Proof.
  induction 1 as [k s H|L ks ss b k s H IH (A & Hb) Hk _]; intros j Hj.
  - destruct Hj as [<-|[]]. apply H.
  - apply in_app_or in Hj. destruct Hj as [Hj|Hj]; [now apply IH|]. apply in_app_or in Hj. destruct Hj as [Hj|[<-|[]]]; [|apply Hk].
    assert (Ha : In j acts -> j < length h). { unfold acts. unfold act_ok in A. destruct nl as [k'|]; [|now intros []]. intros [<-|[]]. apply A. }
    destruct nm as [(f, ps)|]; [|subst b; now apply Ha]. destruct Hb as (k' & -> & L' & _). destruct Hj as [<-|Hj]; auto.
Qed.
Lemma laid_keys h L ks ss : laid h L ks ss -> NoDup ks /\ forall k, In k ks -> k < length h.
Proof.
  induction 1 as [k s H|L ks ss b k s H (N & B) Hb Hk Hn].
  - split; [constructor; [intros []|constructor]|]. intros j [<-|[]]. apply H.
  - split.
    + rewrite <- (rev_involutive (ks ++ [k])). apply NoDup_rev. rewrite rev_app_distr. cbn. constructor; [now rewrite <- in_rev|now apply NoDup_rev].
    + intros j Hj. apply in_app_or in Hj. destruct Hj as [Hj|[<-|[]]]; [auto|apply Hk].
Qed.

(** The function of such a list of modules. *)
Lemma run_cat c L L' x : run c (L ++ L') x = (y <- run c L x ;; run c L' y).
Proof. revert x. induction L as [|k L IH]; intros x; [reflexivity|]. cbn [app run]. destruct (c k x); cbn [rbind]; auto. Qed.
Lemma stages_cat norm Ws w b x : stages norm act (Ws ++ [(w, b)]) x
  = (y <- stages norm act Ws x ;; x1 <- norm y ;; x2 <- act x1 ;; Linear_forward w b x2).
Proof.
  revert x. induction Ws as [|(w', b') Ws IH]; intros x.
  - cbn [app stages rbind]. destruct (norm x) as [t|]; cbn [rbind]; auto. destruct (act t) as [t0|]; cbn [rbind]; auto. destruct (Linear_forward w b t0); reflexivity.
  - cbn [app stages]. destruct (norm x) as [t|]; cbn [rbind]; auto. destruct (act t) as [t0|]; cbn [rbind]; auto. destruct (Linear_forward w' b' t0); cbn [rbind]; auto.
Qed.
Lemma laid_run h L ks ss : wf_heap h -> laid h L ks ss ->
  exists Ws, Forall2 (fun k wb => get h k = OLinear (fst wb) (snd wb)) ks Ws /\ shapes_of Ws = ss /\ Ws <> [] /\
    forall x, run (call h) L x = perceptron (norm_fn nm) act Ws x.
Proof.
  intros W. induction 1 as [k s (L & w & b & E & S)|L ks ss b k s H (Ws & F & Es & Ne & V) (A & Hb) (Lk & w & b' & Ek & Sk) Hn].
  - exists [(w, b)]. split; [constructor; [exact E|constructor]|]. split; [cbn; now rewrite S|]. split; [discriminate|].
    intros x. cbn [run perceptron stages]. rewrite (call_unfold h k x W L), E. reflexivity.
  - exists (Ws ++ [(w, b')]). split; [apply Forall2_app; auto|]. split; [unfold shapes_of in *; now rewrite map_app, Es, <- Sk|].
    split; [now destruct Ws|]. intros x. rewrite run_cat, V.
    assert (Act : forall y, run (call h) acts y = act y).
    { intros y. unfold acts. unfold act_ok in A. destruct nl as [ka|]; [|rewrite A; reflexivity]. destruct A as (La & ps & Ea).
      cbn [run]. rewrite (call_unfold h ka y W La), Ea. cbn [obj_forward]. destruct (act y); reflexivity. }
    assert (Blk : forall y, run (call h) (b ++ [k]) y = (x1 <- norm_fn nm y ;; x2 <- act x1 ;; Linear_forward w b' x2)).
    { intros y. rewrite run_cat. assert (K : forall z, run (call h) [k] z = Linear_forward w b' z).
      { intros z. cbn [run]. rewrite (call_unfold h k z W Lk), Ek. cbn [obj_forward]. destruct (Linear_forward w b' z); reflexivity. }
      unfold norm_fn. destruct nm as [(f, ps)|].
      - destruct Hb as (kf & -> & Lf & Ef). change (run (call h) (kf :: acts) y) with (y0 <- call h kf y ;; run (call h) (acts) y0). rewrite (call_unfold h kf y W Lf), Ef. cbn [obj_forward].
        destruct (f y) as [t|]; cbn [rbind]; [|reflexivity]. rewrite Act. destruct (act t) as [t0|]; cbn [rbind]; [apply K|reflexivity].
      - subst b. rewrite Act. cbn [rbind]. destruct (act y) as [t0|]; cbn [rbind]; [apply K|reflexivity]. }
    destruct Ws as [|(w0, b0) Ws]; [congruence|]. cbn [app perceptron]. destruct (Linear_forward w0 b0 x) as [t|]; cbn [rbind]; auto.
    rewrite stages_cat. destruct (stages (norm_fn nm) act Ws t); cbn [rbind]; auto.
Qed.

(** The constructor lays its modules out in this way. *)
Lemma between_block h : wf_heap h -> act_ok h ->
  exists b e, between nm nl h = Ok (b, h ++ e) /\ wf_heap (h ++ e) /\ block (h ++ e) b.
Proof.
  intros W A. unfold between. destruct nm as [(f, ps)|] eqn:En.
  - exists (length h :: acts), [OModule f ps]. split; [reflexivity|]. split; [apply wf_snoc; auto; now cbn|].
    split; [now apply act_app|]. rewrite En. exists (length h). split; auto. split; [rewrite app_length; cbn; lia|]. apply get_last.
  - exists acts, []. rewrite app_nil_r. split; [reflexivity|]. split; auto. split; auto. now rewrite En.
Qed.
Lemma linear_lin h i o : wf_heap h -> exists e, Linear g i o h = Ok (length h, h ++ e) /\ wf_heap (h ++ e) /\ lin (h ++ e) (length h) ([o; i], [o]).
Proof.
  intros W. eexists [_]. split; [reflexivity|]. split; [apply wf_snoc; auto; now cbn|]. split; [rewrite app_length; cbn; lia|].
  rewrite get_last. eexists _, _. split; reflexivity.
Qed.
Lemma low_laid n : forall h L ks ss, wf_heap h -> act_ok h -> laid h L ks ss ->
  exists L' ks' e, low_hidden g width nm nl n L h = Ok (L', h ++ e) /\ wf_heap (h ++ e) /\ act_ok (h ++ e) /\
    laid (h ++ e) L' ks' (ss ++ repeat ([width; width], [width]) n).
Proof.
  induction n; intros h L ks ss W A H.
  - exists L, ks, []. cbn. rewrite !app_nil_r. auto.
  - destruct (between_block h W A) as (b & e1 & E1 & W1 & B1). destruct (linear_lin (h ++ e1) width width W1) as (e2 & E2 & W2 & L2).
    set (k := length (h ++ e1)) in *. assert (N : ~ In k ks).
    { intros C. apply (proj2 (laid_keys _ _ _ _ H)) in C. unfold k in C. rewrite app_length in C. lia. }
    destruct (IHn ((h ++ e1) ++ e2) (L ++ b ++ [k]) (ks ++ [k]) (ss ++ [([width; width], [width])]) W2) as (L' & ks' & e & E & W3 & A3 & H3).
    + now apply act_app, act_app.
    + constructor; auto; [now apply laid_app, laid_app|now apply block_app].
    + exists L', ks', (e1 ++ e2 ++ e). replace (h ++ e1 ++ e2 ++ e) with (((h ++ e1) ++ e2) ++ e) by now rewrite !app_assoc. split; [|split; [exact W3|split; [exact A3|]]].
      * cbn [low_hidden]. rewrite (mthen_ok _ _ _ _ _ E1), (mthen_ok _ _ _ _ _ E2). exact E.
      * change (repeat ([width; width], [width]) (S n)) with ([([width; width], [width])] ++ repeat ([width; width], [width]) n).
        rewrite (app_assoc ss). exact H3.
Qed.
End Build.

(** The network is: linear layer, then as often as there are hidden layers, and once more with the output layer,
    normalization, activation, linear layer.  Its linear layers are different objects [ks], so all weights of these shapes are
    reached by training. *)
Theorem C118_low_order : forall g win wout depth wh nl nm h, wf_heap h ->
  (forall k, nl = Some k -> k < length h /\ exists f ps, get h k = OModule f ps) ->
  exists net e ks, LowOrderMLP g win wout depth wh nl nm h = Ok (net, h ++ e) /\ NoDup ks /\
    forall h', retrained (h ++ e) h' ->
    exists Ws, Forall2 (fun k wb => get h' k = OLinear (fst wb) (snd wb)) ks Ws /\
      shapes_of Ws = ([wh; win], [wh]) :: repeat ([wh; wh], [wh]) depth ++ [([wout; wh], [wout])] /\
      forall x, call h' net x = perceptron (norm_fn nm) (act_fn h nl) Ws x.
Proof.
  intros g win wout depth wh nl nm h W Ha. set (act := act_fn h nl).
  assert (A : act_ok nl act h).
  { unfold act_ok, act, act_fn. destruct nl as [k|]; auto. destruct (Ha k eq_refl) as (L & f & ps & E). rewrite E. eauto. }
  destruct (linear_lin g h win wh W) as (e1 & E1 & W1 & L1).
  destruct (low_laid g wh nm nl act depth (h ++ e1) [length h] [length h] [([wh; win], [wh])] W1) as (L & ks & e2 & E2 & W2 & A2 & H2).
  { now apply act_app. } { now constructor. }
  destruct (between_block nm nl act ((h ++ e1) ++ e2) W2 A2) as (b & e3 & E3 & W3 & B3).
  destruct (linear_lin g _ wh wout W3) as (e4 & E4 & W4 & L4). set (h4 := (((h ++ e1) ++ e2) ++ e3) ++ e4) in *.
  set (k := length (((h ++ e1) ++ e2) ++ e3)) in *.
  assert (N : ~ In k ks).
  { intros C. apply (proj2 (laid_keys _ _ _ _ _ _ _ H2)) in C. unfold k in C. rewrite (app_length _ e3) in C. lia. }
  assert (H4 : laid nm nl act h4 (L ++ b ++ [k]) (ks ++ [k]) (([([wh; win], [wh])] ++ repeat ([wh; wh], [wh]) depth) ++ [([wout; wh], [wout])])).
  { constructor; auto; [now apply laid_app, laid_app|now apply block_app]. }
  set (m := OSequential (L ++ b ++ [k])). set (om := OModel (length h4)).
  exists (length (h4 ++ [m])), (e1 ++ e2 ++ e3 ++ e4 ++ [m] ++ [om]), (ks ++ [k]).
  replace (h ++ e1 ++ e2 ++ e3 ++ e4 ++ [m] ++ [om]) with ((h4 ++ [m]) ++ [om]) by (unfold h4; now rewrite !app_assoc).
  split.
  { unfold LowOrderMLP. rewrite (mthen_ok _ _ _ _ _ E1), (mthen_ok _ _ _ _ _ E2), (mthen_ok _ _ _ _ _ E3), (mthen_ok _ _ _ _ _ E4). reflexivity. }
  split; [apply (laid_keys _ _ _ _ _ _ _ H4)|]. intros h' Rt.
  assert (W5 : wf_heap (h4 ++ [m])) by (apply wf_snoc; auto; cbn; intros j Hj; eapply laid_lt; eauto).
  assert (W6 : wf_heap ((h4 ++ [m]) ++ [om])) by (apply wf_snoc; auto; intros j [<-|[]]; rewrite app_length; cbn; lia).
  assert (W' : wf_heap h') by now apply (retrained_wf _ _ Rt).
  assert (Ln : length h' = length h4 + 2) by (destruct Rt as (-> & _); rewrite !app_length; cbn; lia).
  assert (Gn : get h' (length (h4 ++ [m])) = om).
  { pose proof (retrained_same _ _ (length (h4 ++ [m])) Rt ltac:(rewrite (app_length (h4 ++ [m])); cbn [length]; lia)) as S. rewrite get_last in S. exact S. }
  assert (Gm : get h' (length h4) = m).
  { pose proof (retrained_same _ _ (length h4) Rt ltac:(rewrite (app_length (h4 ++ [m])), (app_length h4); cbn [length]; lia)) as S.
    rewrite get_app_l, get_last in S by (rewrite app_length; cbn; lia). exact S. }
  destruct (laid_run nm nl act h' _ _ _ W' (laid_rt _ _ _ _ _ _ _ _ Rt (laid_app _ _ _ _ _ _ _ _ (laid_app _ _ _ _ _ _ _ _ H4)))) as (Ws & F & S & _ & V).
  exists Ws. split; [exact F|]. split; [rewrite S; reflexivity|]. intros x.
  rewrite (call_unfold h' (length (h4 ++ [m]))), Gn by (auto; rewrite app_length; cbn; lia). unfold om. cbn [obj_forward].
  rewrite (call_unfold h' (length h4)), Gm by (auto; lia). unfold m. cbn [obj_forward]. apply V.
Qed.
Print Assumptions C118_low_order.

(** ** Without activation and normalization the depth does not matter *)
Definition affine_on (W W' : nat) (f : tensor R -> res (tensor R)) : Prop :=
  exists (A : nat -> nat -> R) (c : nat -> R), forall x B, shape x = [B; W] ->
  exists y, f x = Ok y /\ shape y = [B; W'] /\
    forall b o, b < B -> o < W' -> at_ y [b; o] = (rsum W (fun i => A o i * at_ x [b; i]) + c o)%R.
Lemma affine_linear w b W W' : shape w = [W'; W] -> affine_on W W' (Linear_forward w b).
Proof.
  intros Sw. exists (fun o i => at_ w [o; i]), (fun o => at_ b [o]). intros x B Sx. unfold Linear_forward. rewrite Sw, Sx. cbn [rev app removelast].
  rewrite Nat.eqb_refl. eexists. split; [reflexivity|]. split; [reflexivity|]. intros b' o Hb Ho. cbn [at_ removelast last app].
  f_equal. apply rsum_ext. intros. ring.
Qed.
Lemma affine_comp W W1 W2 f f' : affine_on W W1 f -> affine_on W1 W2 f' -> affine_on W W2 (fun x => y <- f x ;; f' y).
Proof.
  intros (A & c & V) (A' & c' & V').
  exists (fun o i => rsum W1 (fun k => A' o k * A k i)%R), (fun o => rsum W1 (fun k => A' o k * c k) + c' o)%R. intros x B Sx.
  destruct (V x B Sx) as (y & Ey & Sy & Vy). destruct (V' y B Sy) as (z & Ez & Sz & Vz). exists z. rewrite Ey. cbn [rbind].
  split; [exact Ez|]. split; [exact Sz|]. intros b o Hb Ho. rewrite Vz by auto.
  rewrite (rsum_ext W1 _ (fun k => rsum W (fun i => (A' o k * A k i) * at_ x [b; i]) + A' o k * c k)%R).
  - rewrite rsum_plus, rsum_swap. rewrite Rplus_assoc. f_equal. apply rsum_ext. intros i Hi. rewrite Rmult_comm, <- rsum_scal. apply rsum_ext. intros. ring.
  - intros k Hk. rewrite Vy by auto. rewrite Rmult_plus_distr_l, <- rsum_scal. f_equal. apply rsum_ext. intros. ring.
Qed.
Lemma affine_stages depth wh wout : forall Ws, shapes_of Ws = repeat ([wh; wh], [wh]) depth ++ [([wout; wh], [wout])] ->
  affine_on wh wout (stages (fun x => Ok x) (fun x => Ok x) Ws).
Proof.
  induction depth; intros Ws E.
  - destruct Ws as [|(w, b) [|]]; [discriminate| |discriminate]. cbn in E. injection E as Ew _.
    destruct (affine_linear w b wh wout Ew) as (A & c & V). exists A, c. intros x B Sx. destruct (V x B Sx) as (y & Ey & P).
    exists y. cbn [stages rbind]. rewrite Ey. auto.
  - destruct Ws as [|(w, b) Ws]; [discriminate|]. cbn in E. injection E as Ew _ E.
    apply (affine_comp wh wh wout _ _ (affine_linear w b wh wh Ew) (IHdepth Ws E)).
Qed.
Theorem C118_affine : forall g win wout depth wh h, wf_heap h ->
  exists net e, LowOrderMLP g win wout depth wh None None h = Ok (net, h ++ e) /\
    forall h', retrained (h ++ e) h' -> affine_on win wout (call h' net).
Proof.
  intros g win wout depth wh h W.
  destruct (C118_low_order g win wout depth wh None None h W) as (net & e & ks & E & _ & P); [discriminate|].
  exists net, e. split; [exact E|]. intros h' Rt. destruct (P h' Rt) as (Ws & _ & S & V).
  destruct Ws as [|(w, b) Ws]; [discriminate|]. cbn in S. injection S as Sw _ S.
  destruct (affine_comp win wh wout _ _ (affine_linear w b win wh Sw) (affine_stages depth wh wout Ws S)) as (A & c & Q).
  exists A, c. intros x B Sx. rewrite V. cbn [perceptron]. now apply Q.
Qed.
Print Assumptions C118_affine.

(** A network with one hidden layer and relu: three linear layers, two activations. *)
Example C118_case : exists net e, LowOrderMLP (fun k _ => INR k) 2 1 1 3 (Some 0) None [OModule (fun x => Ok (relu x)) []] = Ok (net, [OModule (fun x => Ok (relu x)) []] ++ e) /\
  forall h', retrained ([OModule (fun x => Ok (relu x)) []] ++ e) h' ->
  exists w1 b1 w2 b2 w3 b3, shape w1 = [3; 2] /\ shape w2 = [3; 3] /\ shape w3 = [1; 3] /\
    forall x, call h' net x = (y1 <- Linear_forward w1 b1 x ;; y2 <- Linear_forward w2 b2 (relu y1) ;; Linear_forward w3 b3 (relu y2)).
Proof.
  destruct (C118_low_order (fun k _ => INR k) 2 1 1 3 (Some 0) None [OModule (fun x => Ok (relu x)) []]) as (net & e & ks & E & N & P).
  { intros i Hi j Hj. cbn in Hi. replace i with 0 in Hj by lia. destruct Hj. }
  { intros k Ek. injection Ek as <-. split; [cbn; lia|]. eexists _, _. reflexivity. }
  exists net, e. split; [exact E|]. intros h' Rt. destruct (P h' Rt) as (Ws & _ & S & V).
  destruct Ws as [|(w1, b1) [|(w2, b2) [|(w3, b3) [|]]]]; try discriminate. cbn in S. injection S as S1 _ S2 _ S3 _.
  exists w1, b1, w2, b2, w3, b3. repeat split; auto. intros x. rewrite V. cbn [perceptron stages norm_fn act_fn get nth].
  destruct (Linear_forward w1 b1 x) as [t|]; cbn [rbind]; auto. destruct (Linear_forward w2 b2 (relu t)) as [t0|]; cbn [rbind]; auto.
  destruct (Linear_forward w3 b3 (relu t0)); reflexivity.
Qed.
