(** * Networks with normalisation are bounded and level off far away (C116). *)
From Coq Require Import String Reals ZArith List Lia Lra Psatz Bool Arith Classical.
From Coquelicot Require Import Coquelicot.
From Verif Require Import Spec Tensor Utils LagrangePolynomial Basis PolynomialLayers ProductLayer LagrangeND Normalization NormFacts Layers Networks Observe ObserveNet
  SumFacts TensorFacts LagrangeFacts LayerFacts SegmentFacts LayerProofs ContinuityFacts HeapFacts NetFacts NetCopy NetTypes Prop_Norm Prop_Continuity Prop_Layers Prop_Init Prop_Bounds
  Prop_Universal Prop_Lines.
Import ListNotations.
Local Open Scope R_scope.

(** ** Observations *)
(** [f] has the limit [c] far out. *)
Definition tends (f : R -> R) (c : R) : Prop := forall e, 0 < e -> exists X, forall s, X <= s -> Rabs (f s - c) < e.
(** All entries of a batch lie in [-1,1]. *)
Definition unit_rows (B W : nat) (x : tensor R) : Prop := forall b i, (b < B)%nat -> (i < W)%nat -> -1 <= at_ x [b; i] <= 1.
(** A module whose outputs lie in [-1,1], whatever the inputs; one that keeps [-1,1]. *)
Definition into_unit (W : nat) (f : tensor R -> res (tensor R)) : Prop :=
  forall x B, shape x = [B; W] -> exists y, f x = Ok y /\ shape y = [B; W] /\ unit_rows B W y.
Definition keeps_unit (W W' : nat) (f : tensor R -> res (tensor R)) : Prop :=
  forall x B, shape x = [B; W] -> unit_rows B W x -> exists y, f x = Ok y /\ shape y = [B; W'] /\ unit_rows B W' y.

(** ** Limits *)
Lemma tends_iff f c : tends f c <-> filterlim f (Rbar_locally p_infty) (locally c).
Proof.
  split.
  - intros H P (e & HP). destruct (H e (cond_pos e)) as (X & HX). exists X. intros s Hs. apply HP. apply HX. lra.
  - intros H e He. destruct (H (fun z => Rabs (z - c) < e)) as (X & HX); [exists (mkposreal e He); auto|].
    exists (X + 1). intros s Hs. apply HX. lra.
Qed.
Lemma tends_const c : tends (fun _ => c) c.
Proof. intros e He. exists 0. intros s _. rewrite Rminus_eq_0, Rabs_R0. exact He. Qed.
Lemma tends_ev f g c X : (forall s, X <= s -> f s = g s) -> tends f c -> tends g c.
Proof.
  intros E H e He. destruct (H e He) as (Y & HY). exists (Rmax X Y). intros s Hs. pose proof (Rmax_l X Y). pose proof (Rmax_r X Y).
  rewrite <- E by lra. apply HY. lra.
Qed.
Lemma tends_plus f g c d : tends f c -> tends g d -> tends (fun s => f s + g s) (c + d).
Proof. rewrite !tends_iff. intros F G. eapply filterlim_comp_2; [exact F|exact G|apply (filterlim_plus c d)]. Qed.
Lemma tends_mult f g c d : tends f c -> tends g d -> tends (fun s => f s * g s) (c * d).
Proof. rewrite !tends_iff. intros F G. eapply filterlim_comp_2; [exact F|exact G|apply (filterlim_mult c d)]. Qed.
Lemma tends_comp f c (g : R -> R) : tends f c -> continuity_pt g c -> tends (fun s => g (f s)) (g c).
Proof. rewrite !tends_iff. intros F G. eapply filterlim_comp; [exact F|]. now apply continuity_pt_filterlim. Qed.
Lemma tends_div f g c d : d <> 0 -> tends f c -> tends g d -> tends (fun s => f s / g s) (c / d).
Proof.
  intros D F G. apply tends_mult; [exact F|]. apply (tends_comp g d Rinv G).
  apply (continuity_pt_inv (fun t => t)); [apply continuity_pt_id|exact D].
Qed.
Lemma tends_vec n (G : (nat -> R) -> R) (v : R -> nat -> R) c : continuous_vec n G -> (forall i, (i < n)%nat -> tends (fun s => v s i) (c i)) ->
  tends (fun s => G (v s)) (G c).
Proof.
  intros C H e He. destruct (C c e He) as (d & Hd & V).
  assert (U : forall m, (m <= n)%nat -> exists X, forall s, X <= s -> forall i, (i < m)%nat -> Rabs (v s i - c i) < d).
  { induction m as [|m IH]; intros Hm; [exists 0; intros; lia|]. destruct (IH ltac:(lia)) as (X & HX). destruct (H m ltac:(lia) d Hd) as (Y & HY).
    exists (Rmax X Y). intros s Hs i Hi. pose proof (Rmax_l X Y). pose proof (Rmax_r X Y).
    destruct (Nat.eq_dec i m) as [->|]; [apply HY|apply HX]; try lra; lia. }
  destruct (U n (le_n _)) as (X & HX). exists X. intros s Hs. apply V. auto.
Qed.
Lemma tends_inv_s : tends (fun s => / s) 0.
Proof.
  intros e He. exists (/ e + 1). intros s Hs. pose proof (Rinv_0_lt_compat e He). rewrite Rminus_0_r, Rabs_pos_eq by (apply Rlt_le, Rinv_0_lt_compat; lra).
  rewrite <- (Rinv_involutive e) by lra. apply Rinv_lt_contravar; [apply Rmult_lt_0_compat; lra|lra].
Qed.

(** ** Polynomials far out *)
Lemma tends_lead n (c : nat -> R) : tends (fun s => rsum (S n) (fun k => c k * s ^ k) / s ^ n) (c n).
Proof.
  induction n as [|n IH].
  - apply (tends_ev (fun _ => c 0%nat) _ _ 0); [|apply tends_const]. intros s _. cbn. field.
  - apply (tends_ev (fun s => rsum (S n) (fun k => c k * s ^ k) / s ^ n * / s + c (S n)) _ _ 1).
    + intros s Hs. assert (N : s ^ n <> 0) by (apply pow_nonzero; lra).
      change (rsum (S (S n)) (fun k => c k * s ^ k)) with (rsum (S n) (fun k => c k * s ^ k) + c (S n) * (s * s ^ n)).
      change (s ^ S n) with (s * s ^ n). field. split; [exact N|lra].
    + assert (L := tends_plus _ _ _ _ (tends_mult _ _ _ _ IH tends_inv_s) (tends_const (c (S n)))).
      replace (c n * 0 + c (S n)) with (c (S n)) in L by ring. exact L.
Qed.
(** Polynomials divided by the highest power that occurs in any of them. *)
Lemma common_degree H n (P : nat -> R -> R) : (forall i, (i < H)%nat -> poly_lt n (P i)) ->
  exists D a, (forall i, (i < H)%nat -> tends (fun s => P i s / s ^ D) (a i)) /\ (D = 0%nat \/ exists i, (i < H)%nat /\ a i <> 0).
Proof.
  intros HP. assert (C : exists c : nat -> nat -> R, forall i, (i < H)%nat -> forall s, P i s = rsum n (fun k => c i k * s ^ k)).
  { clear - HP. induction H as [|H IH]; [exists (fun _ _ => 0); intros; lia|]. destruct IH as (c & Hc); [intros; apply HP; lia|].
    destruct (HP H ltac:(lia)) as (d & Hd). exists (fun i => if Nat.eqb i H then d else c i). intros i Hi.
    destruct (Nat.eqb_spec i H) as [->|]; [exact Hd|apply Hc; lia]. }
  destruct C as (c & Hc). clear HP. revert Hc. induction n as [|n IH]; intros Hc.
  - exists 0%nat, (fun _ => 0). split; [|now left]. intros i Hi. apply (tends_ev (fun _ => 0) _ _ 0); [|apply tends_const].
    intros s _. rewrite Hc by assumption. cbn. field.
  - destruct (classic (exists i, (i < H)%nat /\ c i n <> 0)) as [E|E].
    + exists n, (fun i => c i n). split; [|now right]. intros i Hi. apply (tends_ev (fun s => rsum (S n) (fun k => c i k * s ^ k) / s ^ n) _ _ 0); [|apply tends_lead].
      intros s _. now rewrite Hc.
    + apply IH. intros i Hi s. rewrite Hc by assumption. cbn [rsum].
      replace (c i n) with 0; [ring|]. destruct (Req_dec (c i n) 0) as [->|Ne]; auto. exfalso. eauto.
Qed.
Lemma rmax_scale n c f : 0 <= c -> rmax n (fun k => c * f k) = c * rmax n f.
Proof.
  intros Hc. induction n as [|n IH]; [cbn; ring|]. destruct n as [|n]; [reflexivity|].
  change (Rmax (rmax (S n) (fun k => c * f k)) (c * f (S n)) = c * Rmax (rmax (S n) f) (f (S n))). rewrite IH. now rewrite RmaxRmult.
Qed.
(** Polynomials, normalised by the largest of them, level off. *)
Lemma normalised_tend H n (P : nat -> R -> R) eps : (forall i, (i < H)%nat -> poly_lt n (P i)) -> 0 < eps ->
  exists a, forall j, (j < H)%nat -> tends (fun s => P j s / (rmax H (fun i => Rabs (P i s)) + eps)) (a j).
Proof.
  intros HP He. destruct (common_degree H n P HP) as (D & a & Ta & Lead).
  set (e0 := match D with O => eps | _ => 0 end). set (M := rmax H (fun i => Rabs (a i))).
  assert (Te : tends (fun s => eps / s ^ D) e0).
  { unfold e0. destruct D as [|D]; [apply (tends_ev (fun _ => eps) _ _ 0); [intros; cbn; field|apply tends_const]|].
    replace 0 with (eps * 0 ^ S D) by (cbn; ring). apply (tends_ev (fun s => eps * (/ s) ^ S D) _ _ 1).
    - intros s Hs. unfold Rdiv. rewrite Rinv_pow by lra. reflexivity.
    - apply tends_mult; [apply tends_const|]. apply (tends_comp (fun s => / s) 0 (fun t => t ^ S D)); [apply tends_inv_s|].
      apply derivable_continuous_pt. apply derivable_pt_pow. }
  assert (M0 : 0 <= M) by (apply rmax_nonneg; intros; apply Rabs_pos).
  assert (E0 : M + e0 <> 0).
  { destruct Lead as [D0|(i & Hi & Ai)].
    - unfold e0. rewrite D0. lra.
    - assert (0 < Rabs (a i)) by now apply Rabs_pos_lt. pose proof (rmax_ge H (fun i => Rabs (a i)) i Hi) as G. cbn beta in G. fold M in G.
      unfold e0. destruct D; lra. }
  exists (fun j => a j / (M + e0)). intros j Hj.
  apply (tends_ev (fun s => P j s / s ^ D / (rmax H (fun i => Rabs (P i s / s ^ D)) + eps / s ^ D)) _ _ 1).
  - intros s Hs. assert (N : 0 < s ^ D) by (apply pow_lt; lra). assert (Ni := Rinv_0_lt_compat _ N).
    rewrite (rmax_ext H (fun i => Rabs (P i s / s ^ D)) (fun i => / s ^ D * Rabs (P i s))).
    2:{ intros i _. unfold Rdiv. rewrite Rabs_mult, (Rabs_pos_eq (/ s ^ D)) by lra. ring. }
    rewrite rmax_scale by lra. pose proof (rmax_nonneg H (fun i => Rabs (P i s)) (fun i _ => Rabs_pos _)). field. split; lra.
  - apply tends_div; [exact E0|now apply Ta|]. apply tends_plus; [|exact Te].
    apply (tends_vec H (fun v => rmax H (fun i => Rabs (v i))) (fun s i => P i s / s ^ D) a); [|exact Ta].
    apply cv_rmax. intros k Hk. now apply cv_abs, cv_proj.
Qed.

(** ** The normalisations *)
Lemma max_abs_row x eps B W : (1 <= W)%nat -> shape x = [B; W] -> exists y, max_abs_normalization_last x eps = Ok y /\ shape y = [B; W] /\
  forall b o, at_ y [b; o] = at_ x [b; o] / (rmax W (fun k => Rabs (at_ x [b; k])) + eps).
Proof.
  intros HW Sx. assert (Ew : wrap 2 1 = 1%nat) by reflexivity. assert (Ei : index_ok 2 1 = true) by reflexivity.
  assert (W0 : (W =? 0)%nat = false) by (apply Nat.eqb_neq; lia).
  unfold max_abs_normalization_last. rewrite Sx. change (Z.of_nat (length [B; W]) - 1)%Z with 1%Z.
  unfold max_abs_normalization, max_abs, reduce_keep. cbn [tmap shape]. rewrite Sx. cbn [length]. rewrite Ei, Ew. cbn [nth andb]. rewrite W0. cbn [rbind].
  eexists. split; [reflexivity|]. split; [exact Sx|]. intros b o. unfold with_reduced. cbn [shape at_]. rewrite Sx. cbn [length]. rewrite Ew. reflexivity.
Qed.
Lemma into_unit_max_abs W eps : (1 <= W)%nat -> 0 < eps -> into_unit W (fun x => max_abs_normalization_last x eps).
Proof.
  intros HW He x B Sx. destruct (max_abs_row x eps B W HW Sx) as (y & Ey & Sy & Vy). exists y. split; [exact Ey|]. split; [exact Sy|].
  intros b i Hb Hi. rewrite Vy. pose proof (rmax_ge W (fun k => Rabs (at_ x [b; k])) i Hi) as G. cbn beta in G.
  set (M := rmax W (fun k => Rabs (at_ x [b; k]))) in *. pose proof (Rabs_pos (at_ x [b; i])). pose proof (Rle_abs (at_ x [b; i])).
  pose proof (Rle_abs (- at_ x [b; i])) as N. rewrite Rabs_Ropp in N. split; [apply Rle_div_r|apply Rle_div_l]; lra.
Qed.
Lemma into_unit_max_center W eps : (1 <= W)%nat -> 0 < eps -> into_unit W (fun x => max_center_normalization_last x eps).
Proof.
  intros HW He x B Sx. assert (Ew : wrap 2 1 = 1%nat) by reflexivity. assert (Ei : index_ok 2 1 = true) by reflexivity.
  assert (W0 : (W =? 0)%nat = false) by (apply Nat.eqb_neq; lia).
  unfold max_center_normalization_last. rewrite Sx. change (Z.of_nat (length [B; W]) - 1)%Z with 1%Z.
  unfold max_center_normalization, reduce_keep. rewrite Sx. cbn [length]. rewrite Ei, Ew. cbn [nth andb]. rewrite W0. cbn [rbind].
  eexists. split; [reflexivity|]. split; [exact Sx|]. intros b i Hb Hi. unfold with_reduced. cbn [shape at_]. rewrite Sx. cbn [length tmap2 at_]. rewrite Ew. cbn [set_nth at_].
  set (f := fun k => at_ x [b; k]). change (at_ x [b; i]) with (f i).
  pose proof (rmax_ge W f i Hi) as G1. pose proof (rmin_le W f i Hi) as G2.
  split; [apply Rle_div_r|apply Rle_div_l]; lra.
Qed.
Lemma into_unit_l2 W eps : 0 < eps -> into_unit W (fun x => l2_normalization x eps).
Proof.
  intros He x B Sx. destruct (C26_l2_norm x eps B W He Sx) as (y & Ey & Sy & Vy). exists y. split; [exact Ey|]. split; [exact Sy|].
  intros b i Hb Hi. destruct (Vy b Hb) as (_ & _ & E & L). cbv zeta in E, L.
  assert (Q : sqrt (rsum W (fun i => at_ y [b; i] * at_ y [b; i])) < 1) by (rewrite E; exact L).
  assert (Sq : rsum W (fun i => at_ y [b; i] * at_ y [b; i]) < 1).
  { rewrite <- sqrt_1 in Q. now apply sqrt_lt_0_alt in Q. }
  assert (G : at_ y [b; i] * at_ y [b; i] <= rsum W (fun i => at_ y [b; i] * at_ y [b; i])).
  { clear - Hi. induction W as [|W IH]; [lia|]. cbn [rsum]. assert (N : 0 <= rsum W (fun i => at_ y [b; i] * at_ y [b; i])).
    { apply rsum_nonneg. intros k _. nra. }
    destruct (Nat.eq_dec i W) as [->|]; [lra|]. specialize (IH ltac:(lia)). nra. }
  nra.
Qed.

(** The normalisations of the package yield values in [-1,1] only. *)
Theorem C116_normalisations : forall W eps, (1 <= W)%nat -> 0 < eps ->
  into_unit W (fun x => max_abs_normalization_last x eps) /\ into_unit W (fun x => max_center_normalization_last x eps) /\
  into_unit W (fun x => l2_normalization x eps).
Proof. intros. split; [now apply into_unit_max_abs|]. split; [now apply into_unit_max_center|now apply into_unit_l2]. Qed.
Print Assumptions C116_normalisations.

(** ** Parts of networks *)
Lemma mlp_last g a h net h' : HighOrderMLP g a h = Ok (net, h') ->
  exists dl k1 k2 m L, get h' net = OMLP dl k1 k2 m /\ get h' m = OSequential (L ++ [k2]).
Proof.
  unfold HighOrderMLP. destruct Rlt_dec; [discriminate|]. destruct Rlt_dec; [discriminate|]. unfold mthen, alloc.
  destruct (mlp_layer _ _ _ _ _ _ _ _) as [[k1 h1]|]; [|discriminate].
  destruct (mlp_hidden _ _ _ _ _ _ _) as [[ls h2]|] eqn:El; [|discriminate].
  destruct (between _ _ h2) as [[b h3]|]; [|discriminate].
  destruct (mlp_layer _ _ _ _ _ _ _ h3) as [[k2 h4]|]; [|discriminate].
  intros E. injection E as <- <-. eexists _, k1, k2, _, (ls ++ b ++ dropout_list a (length h)). split; [apply get_last|].
  rewrite get_app_l by (rewrite app_length; cbn; lia). rewrite get_last. now rewrite <- !app_assoc.
Qed.
Lemma described_run (Rl : nat -> nat -> (tensor R -> res (tensor R)) -> Prop)
  (Rid : forall W, Rl W W (fun x => Ok x)) (Rcomp : forall W W1 W2 f g, Rl W W1 f -> Rl W1 W2 g -> Rl W W2 (fun x => y <- f x ;; g y))
  (Rext : forall W W' f g, (forall x, f x = g x) -> Rl W W' f -> Rl W W' g) (T : slot -> nat -> nat -> Prop) h dl nl L Sl W W' :
  Forall2 (describes nl dl h) L Sl -> via T W Sl W' ->
  (forall k s W W1, In k L -> In s Sl -> describes nl dl h k s -> T s W W1 -> Rl W W1 (call h k)) -> Rl W W' (run (call h) L).
Proof.
  intros D Io V. apply (links_run Rl Rid Rcomp Rext). revert W Io V.
  induction D as [|k s L Sl Dk D IH]; intros W Io V; inversion Io as [|? W1 ? ? ? Io0 Io1]; subst; [constructor|].
  econstructor.
  - eapply (V k s); eauto; now left.
  - apply (IH W1 Io1). intros k' s' A A' Hk Hs. apply V; now right.
Qed.
Lemma run_app c L L' x : run c (L ++ L') x = (y <- run c L x ;; run c L' y).
Proof. revert x. induction L as [|k L IH]; intros x; [reflexivity|]. cbn [app run]. destruct (c k x); cbn [rbind]; auto. Qed.

Lemma maps_id W : maps W W (fun x => Ok x).
Proof. intros x B Hx. eauto. Qed.
Lemma maps_comp W W1 W2 f g : maps W W1 f -> maps W1 W2 g -> maps W W2 (fun x => y <- f x ;; g y).
Proof. intros F G x B Hx. destruct (F x B Hx) as (y & -> & Sy). cbn [rbind]. now apply G. Qed.
Lemma maps_ext W W' f g : (forall x, f x = g x) -> maps W W' f -> maps W W' g.
Proof. intros E F x B Hx. rewrite <- E. now apply F. Qed.
Lemma keeps_id W : keeps_unit W W (fun x => Ok x).
Proof. intros x B Hx U. eauto. Qed.
Lemma keeps_comp W W1 W2 f g : keeps_unit W W1 f -> keeps_unit W1 W2 g -> keeps_unit W W2 (fun x => y <- f x ;; g y).
Proof. intros F G x B Hx U. destruct (F x B Hx U) as (y & -> & Sy & Uy). cbn [rbind]. now apply G. Qed.
Lemma keeps_ext W W' f g : (forall x, f x = g x) -> keeps_unit W W' f -> keeps_unit W W' g.
Proof. intros E F x B Hx. rewrite <- E. now apply F. Qed.
Lemma layer_slot_sum t n I O s : layer_type t -> exists c, sum_class c /\ layer_slot t n I O s None = SP (pw_slot c n I O s None).
Proof. intros [->| ->]; cbn; eexists; (split; [|reflexivity]); [now left|now right]. Qed.

Lemma via_split (T : slot -> nat -> nat -> Prop) Sl Sl' : forall W W', via T W (Sl ++ Sl') W' -> exists W1, via T W Sl W1 /\ via T W1 Sl' W'.
Proof.
  induction Sl as [|s Sl IH]; intros W W' V; [exists W; split; [constructor|exact V]|]. cbn [app] in V. inversion V as [|? W1 ? ? ? V0 V1]; subst.
  destruct (IH _ _ V1) as (W2 & V2 & V3). exists W2. split; [econstructor; eauto|exact V3].
Qed.
(** The widths at the modules of a network. *)
Definition widths (a : mlp_args) (f : tensor R -> res (tensor R)) (s : slot) (W W1 : nat) : Prop :=
  match s with
  | SP c => c_in c = W /\ c_out c = W1
  | SSw cs => cs <> [] /\ List.Forall (fun c => c_in c = W /\ c_out c = W1) cs
  | SM f' => f' = f /\ W = ma_hidden_width a /\ W1 = ma_hidden_width a
  | SNl => W = ma_hidden_width a /\ W1 = ma_hidden_width a /\ exists k, ma_non_linearity a = Some k
  | SDrop => W1 = W
  end.
Lemma mlp_widths a f ps ni nh no si sh so : plain_mlp a ni nh no si sh so -> ma_normalization a = Some (f, ps) ->
  via (widths a f) (ma_in_width a) (mlp_slots a ni nh no si sh so) (ma_out_width a).
Proof.
  intros P Hf. assert (Ly : forall t n I O s per, refinable_type t -> widths a f (layer_slot t n I O s per) I O).
  { intros t n I O s per Ht. destruct (layer_slot_cases t n I O s per Ht) as [(c & _ & ->)|(c & _ & ->)]; cbn; [auto|].
    split; [discriminate|]. repeat constructor. }
  destruct P. apply mlp_via; try (now apply Ly); cbn; auto; eauto. intros f' ps' Ef. rewrite Hf in Ef. injection Ef as <- _. auto.
Qed.

(** ** Bounded outputs *)
(** Whatever the inputs and the weights of the other layers: the outputs are bounded by the weights of the output layer. *)
Theorem C116_bounded : forall g a f ps ni nh no si sh so h0 net h1 h dl k1 k2 m l W x B,
  wf_heap h0 -> plain_mlp a ni nh no si sh so -> (2 <= no)%nat ->
  layer_type (or_string (ma_layer_type_in a) (ma_layer_type a)) -> layer_type (ma_layer_type a) -> ma_periodicity a = None ->
  ma_normalization a = Some (f, ps) -> into_unit (ma_hidden_width a) f ->
  (forall k, ma_non_linearity a = Some k -> (k < length h0)%nat /\ exists f ps, get h0 k = OModule f ps /\
     maps (ma_hidden_width a) (ma_hidden_width a) f /\ keeps_unit (ma_hidden_width a) (ma_hidden_width a) f) ->
  HighOrderMLP g a h0 = Ok (net, h1) -> retrained h1 h -> get h net = OMLP dl k1 k2 m -> get h k2 = OPiecewise l ->
  (forall ix, valid (shape (pw_w l)) ix -> Rabs (at_ (pw_w l) ix) <= W) -> shape x = [B; ma_in_width a] ->
  exists y, call h net x = Ok y /\ shape y = [B; ma_out_width a] /\
    forall b o, (b < B)%nat -> (o < ma_out_width a)%nat -> Rabs (at_ y [b; o]) <= INR (ma_hidden_width a) * (2 * INR (no - 1) * W).
Proof.
  intros g a f ps ni nh no si sh so h0 net h1 h dl k1 k2 m l W x B Wf0 P Hno Hti Ht Hper Hnm Hf Hnl E Rt G Gk HW Sx.
  assert (A : activation_in h0 a) by (intros k Ek; destruct (Hnl k Ek) as (Lk & f' & ps' & Gk' & _); eauto).
  destruct (mlp_view g a h0 h1 h net ni nh no si sh so Wf0 P A E Rt) as (nl & dl' & k1' & k2' & m' & L & Wf & Ln & G' & Lm & Q & Bt & Ld & Gd & _ & _ & N & Lh0).
  rewrite G in G'. injection G' as <- <- <- <-.
  destruct (mlp_last g a h0 net h1 E) as (dl2 & k12 & k22 & m2 & L2 & G2 & Q2).
  assert (Len : length h = length h1) by apply Rt.
  assert (Same : forall k o, get h1 k = o -> (k < length h1)%nat -> match o with OSequential _ | OMLP _ _ _ _ => True | _ => False end -> get h k = o).
  { intros k o Ek Lk Ho. pose proof (retrained_same h1 h k Rt Lk) as S. rewrite Ek in S. destruct o; try contradiction; exact S. }
  pose proof (Same net _ G2 ltac:(lia) Logic.I) as G3. rewrite G in G3. injection G3 as -> -> -> ->.
  pose proof (Same m2 _ Q2 ltac:(lia) Logic.I) as Q3. rewrite Q in Q3. injection Q3 as ->.
  set (H := ma_hidden_width a) in *. destruct (pm_widths _ _ _ _ _ _ _ P) as (W1 & W2 & W3).
  destruct (layer_slot_sum (ma_layer_type a) no H (ma_out_width a) so Ht) as (c & Hc & Ec).
  pose proof (b_desc _ _ _ _ _ _ Bt) as D.
  set (pre := [layer_slot (or_string (ma_layer_type_in a) (ma_layer_type a)) ni (ma_in_width a) (ma_hidden_width a) si (ma_periodicity a)] ++
     concat (repeat (hidden_slots a nh sh) (ma_hidden_layers a))).
  set (mid := match ma_non_linearity a with Some _ => [SNl] | None => [] end ++ drop_slots a).
  assert (Esl : mlp_slots a ni nh no si sh so = pre ++ [SM f] ++ mid ++ [SP (pw_slot c no H (ma_out_width a) so None)]).
  { unfold mlp_slots, pre, mid, between_slots. fold H. rewrite Hper, Ec, Hnm. now rewrite <- !app_assoc. }
  rewrite Esl, !app_assoc in D. apply Forall2_app_inv_r in D. destruct D as (La & Lb & D & Db & Eab).
  inversion Db as [|kz sz Lz Sz Dz Dn]; subst. inversion Dn; subst.
  apply app_inj_tail in Eab. destruct Eab as (-> & ->).
  rewrite <- app_assoc in D. apply Forall2_app_inv_r in D. destruct D as (Lp & Lq & Dp & Dq & ->).
  inversion Dq as [|kf sf Lmid Smid Df Dmid]; subst.
  pose proof (mlp_widths a f ps ni nh no si sh so P Hnm) as V. rewrite Esl in V.
  apply via_split in V. destruct V as (Wa & Va & V). apply via_split in V. destruct V as (Wb & Vb & V). apply via_split in V. destruct V as (Wc & Vc & Vd).
  inversion Vb as [|? Wb' ? ? ? Vb0 Vb1]; subst. inversion Vb1; subst. destruct Vb0 as (_ & -> & ->). fold H in Va, Vc.
  inversion Vd as [|? Wd' ? ? ? Vd0 Vd1]; subst. destruct Vd0 as (Ewc & _). cbn [pw_slot c_in] in Ewc. subst Wc.
  assert (Nl : forall k, ma_non_linearity a = Some k -> nl = k /\ exists f ps, get h k = OModule f ps /\ maps H H f /\ keeps_unit H H f).
  { intros k Ek. destruct (N k Ek) as (-> & Lk & ->). split; auto. now apply Hnl. }
  (* the modules before the last normalisation *)
  assert (Mp : maps (ma_in_width a) H (run (call h) Lp)).
  { apply (described_run maps maps_id maps_comp maps_ext (widths a f) h dl2 nl Lp pre); auto.
    intros k s W0 W4 Hk Hs (Lk & Dk) Io. destruct s as [c0|cs|f'| |]; cbn in Io.
    - destruct Io as (<- & <-), Dk as (l0 & El & Hl & <-). intros z Bz Sz. rewrite call_unfold, El by auto.
      destruct (forward_rows l0 z Bz Hl Sz) as (y & Ey & Sy & _). exists y. auto.
    - exfalso. assert (Fs : List.Forall (fun s => match s with SSw _ => False | _ => True end) (mlp_slots a ni nh no si sh so)).
      { apply mlp_slots_all; auto; rewrite Hper.
        - destruct (layer_slot_sum _ ni (ma_in_width a) (ma_hidden_width a) si Hti) as (? & _ & ->). exact Logic.I.
        - destruct (layer_slot_sum _ nh (ma_hidden_width a) (ma_hidden_width a) sh Ht) as (? & _ & ->). exact Logic.I.
        - destruct (layer_slot_sum _ no (ma_hidden_width a) (ma_out_width a) so Ht) as (? & _ & ->). exact Logic.I. }
      rewrite List.Forall_forall in Fs. apply (Fs (SSw cs)). rewrite Esl. apply in_or_app. now left.
    - destruct Io as (-> & -> & ->), Dk as (ps' & El). intros z Bz Sz. rewrite call_unfold, El by auto. destruct (Hf z Bz Sz) as (y & Ey & Sy & _). exists y. auto.
    - destruct Io as (-> & -> & k' & Ek'), Dk as (-> & _). destruct (Nl k' Ek') as (-> & f' & ps' & El & Mf & _).
      apply (maps_ext _ _ f'); auto. intros z. now rewrite (call_unfold h k'), El by auto.
    - destruct Dk as (-> & _). subst W4. apply (maps_ext _ _ (fun x => Ok x)); [|apply maps_id]. intros z. now rewrite (call_unfold h dl2), Gd by auto. }
  assert (Kp : keeps_unit H H (run (call h) Lmid)).
  { apply (described_run keeps_unit keeps_id keeps_comp keeps_ext (widths a f) h dl2 nl Lmid mid); auto.
    intros k s W0 W4 Hk Hs (Lk & Dk) Io.
    assert (Hs' : s = SNl \/ s = SDrop).
    { unfold mid, drop_slots in Hs. apply in_app_or in Hs. destruct Hs as [Hs|Hs].
      - left. destruct (ma_non_linearity a); cbn in Hs; [destruct Hs as [<-|[]]; reflexivity|contradiction].
      - right. destruct Rlt_dec; cbn in Hs; [destruct Hs as [<-|[]]; reflexivity|contradiction]. }
    destruct Hs' as [->| ->]; cbn in Io.
    - destruct Io as (-> & -> & k' & Ek'), Dk as (-> & _). destruct (Nl k' Ek') as (-> & f' & ps' & El & _ & Mf).
      apply (keeps_ext _ _ f'); auto. intros z. now rewrite (call_unfold h k'), El by auto.
    - destruct Dk as (-> & _). subst W4. apply (keeps_ext _ _ (fun x => Ok x)); [|apply keeps_id]. intros z. now rewrite (call_unfold h dl2), Gd by auto. }
  rewrite (call_unfold h net), G by auto. cbn [obj_forward]. rewrite (call_unfold h m2), Q by auto. cbn [obj_forward].
  rewrite !run_app. destruct (Mp x B Sx) as (y1 & -> & S1). cbn [rbind run].
  destruct Df as (Lf & ps' & Gf). rewrite (call_unfold h kf), Gf by auto. cbn [obj_forward].
  destruct (Hf y1 B S1) as (y2 & -> & S2 & U2). cbn [rbind]. destruct (Kp y2 B S2 U2) as (y3 & -> & S3 & U3). cbn [rbind].
  destruct Dz as (Lz & l' & El' & Hl' & Cl'). rewrite Gk in El'. injection El' as <-. rewrite (call_unfold h kz), Gk by auto. cbn [obj_forward].
  unfold cfg_of, pw_slot in Cl'. injection Cl' as C1 C2 C3 C4 C5 C6 C7.
  destruct (forward_rows l y3 B Hl' ltac:(rewrite C3; exact S3)) as (y & -> & Sy & Vy). cbn [rbind]. exists y. split; [reflexivity|].
  rewrite C4 in Sy, Vy. split; [exact Sy|]. intros b o Hb Ho. rewrite Vy by auto. rewrite <- C2. rewrite <- C3 at 1.
  apply C79_bounded_weights_bound_output; auto; try lia.
  - now rewrite C1.
  - rewrite C7. cbn. intros i Hi. rewrite C3 in Hi. now apply U3.
Qed.
Print Assumptions C116_bounded.

(** ** Levelling off *)
Definition continuous_cfg (c : cfg) : Prop := c_cls c = PiecewisePolynomial /\ c_len c = 2 /\ c_per c = None.
Definition continuous_slot (s : slot) : Prop := match s with SP c => continuous_cfg c | SSw cs => List.Forall continuous_cfg cs | _ => True end.
Lemma cfg_continuous h k c : wf_heap h -> is_pw h k c -> continuous_cfg c -> rowwise_continuous (c_in c) (c_out c) (call h k).
Proof.
  intros Wf (l & El & Hl & <-) (C1 & C2 & C3). cbn [cfg_of c_in c_out c_cls c_len c_per] in *. apply continuous_call; auto.
  intros o Ho. apply C08_continuous_everywhere; auto; [rewrite C1; now left|]. intros p Ep. rewrite C3 in Ep. discriminate.
Qed.
Lemma slot_continuous h nl dl a f k s W W1 : wf_heap h -> describes nl dl h k s -> widths a f s W W1 -> continuous_slot s ->
  rowwise_continuous (ma_hidden_width a) (ma_hidden_width a) f ->
  (forall k, ma_non_linearity a = Some k -> nl = k /\ exists f ps, get h k = OModule f ps /\ rowwise_continuous (ma_hidden_width a) (ma_hidden_width a) f) ->
  get h dl = OModule (fun x => Ok x) [] -> rowwise_continuous W W1 (call h k).
Proof.
  intros Wf (Lk & D) Io Cs Cf Hnl Gd. destruct s as [c|cs|f'| |]; cbn in Io, Cs.
  - destruct Io as (<- & <-). now apply cfg_continuous.
  - destruct D as (I & O & ls & El & F), Io as (Nc & Io). assert (Nls : ls <> []) by (intros ->; inversion F; subst; auto).
    apply (rowwise_continuous_ext _ _ (obj_forward (call h) (OSwitch I O ls None))).
    { intros x. now rewrite (call_unfold h k), El by auto. }
    apply switch_continuous; auto. clear El Nc Nls.
    induction F as [|j c ls cs Dj F IH]; [constructor|]. inversion Io as [|? ? (Ci & Co) Io']; subst. inversion Cs; subst.
    constructor; [now apply cfg_continuous|now apply IH].
  - destruct Io as (-> & -> & ->), D as (ps & El). apply (rowwise_continuous_ext _ _ f); auto. intros x. now rewrite (call_unfold h k), El by auto.
  - destruct Io as (-> & -> & k' & Ek'), D as (-> & _). destruct (Hnl k' Ek') as (-> & f' & ps & El & Cf').
    apply (rowwise_continuous_ext _ _ f'); auto. intros x. now rewrite (call_unfold h k'), El by auto.
  - destruct D as (-> & _). subst W1. apply (rowwise_continuous_ext _ _ (fun x => Ok x)); [|apply rowwise_continuous_id].
    intros x. now rewrite (call_unfold h dl), Gd by auto.
Qed.
Lemma slots_start a f ps ni nh no si sh so : ma_normalization a = Some (f, ps) -> exists rest,
  mlp_slots a ni nh no si sh so =
    layer_slot (or_string (ma_layer_type_in a) (ma_layer_type a)) ni (ma_in_width a) (ma_hidden_width a) si (ma_periodicity a) :: SM f :: rest /\
  incl rest ([SM f; SNl; SDrop; layer_slot (ma_layer_type a) nh (ma_hidden_width a) (ma_hidden_width a) sh (ma_periodicity a);
    layer_slot (ma_layer_type a) no (ma_hidden_width a) (ma_out_width a) so (ma_periodicity a)]).
Proof.
  intros Hf. set (all := [SM f; SNl; SDrop; _; _]).
  assert (Bt : exists b, between_slots (ma_normalization a) (ma_non_linearity a) = SM f :: b /\ incl b all).
  { unfold between_slots. rewrite Hf. eexists. split; [reflexivity|]. destruct (ma_non_linearity a); intros s Hs; cbn in Hs; [|contradiction].
    destruct Hs as [<-|[]]. right. now left. }
  destruct Bt as (b & Eb & Ib).
  assert (Id : incl (drop_slots a) all) by (unfold drop_slots; destruct Rlt_dec; intros s Hs; cbn in Hs; [destruct Hs as [<-|[]]; right; right; now left|contradiction]).
  set (ly := layer_slot (ma_layer_type a) nh (ma_hidden_width a) (ma_hidden_width a) sh (ma_periodicity a)).
  set (lo := layer_slot (ma_layer_type a) no (ma_hidden_width a) (ma_out_width a) so (ma_periodicity a)).
  assert (Iy : incl [ly] all) by (intros s [<-|[]]; do 3 right; now left). assert (Io : incl [lo] all) by (intros s [<-|[]]; do 4 right; now left).
  assert (Ib' : incl (between_slots (ma_normalization a) (ma_non_linearity a)) all) by (rewrite Eb; intros s [<-|Hs]; [now left|now apply Ib]).
  assert (Ih : incl (hidden_slots a nh sh) all) by (unfold hidden_slots; apply incl_app; [exact Ib'|]; apply incl_app; [exact Id|exact Iy]).
  assert (Ic : forall n, incl (concat (repeat (hidden_slots a nh sh) n)) all) by (induction n; cbn [repeat concat]; [intros s []|now apply incl_app]).
  unfold mlp_slots. fold ly lo. destruct (ma_hidden_layers a) as [|K]; cbn [repeat concat app].
  - rewrite Eb. cbn [app]. eexists. split; [reflexivity|]. apply incl_app; [exact Ib|]. apply incl_app; [exact Id|exact Io].
  - unfold hidden_slots at 1. rewrite Eb. cbn [app]. eexists. split; [reflexivity|]. rewrite <- !app_assoc. fold ly.
    apply incl_app; [exact Ib|]. apply incl_app; [exact Id|]. apply (incl_app (l := [ly])); [exact Iy|]. apply incl_app; [apply Ic|].
    apply incl_cons; [now left|]. apply incl_app; [exact Ib|]. apply incl_app; [exact Id|exact Io].
Qed.

(** With max-abs normalisation the outputs of networks converge along every line, for all weights. *)
Theorem C116_levels_off : forall g a ps eps ni nh no si sh so h0 net h1 h p q o,
  wf_heap h0 -> plain_mlp a ni nh no si sh so -> layer_type (or_string (ma_layer_type_in a) (ma_layer_type a)) ->
  ma_layer_type a = "continuous"%string \/ ma_layer_type a = "switch_continuous"%string -> ma_periodicity a = None ->
  ma_normalization a = Some (fun x => max_abs_normalization_last x eps, ps) -> 0 < eps ->
  (forall k, ma_non_linearity a = Some k -> (k < length h0)%nat /\
     exists f ps, get h0 k = OModule f ps /\ rowwise_continuous (ma_hidden_width a) (ma_hidden_width a) f) ->
  HighOrderMLP g a h0 = Ok (net, h1) -> retrained h1 h -> (o < ma_out_width a)%nat ->
  (forall s, exists y, call h net (on_line (ma_in_width a) p q s) = Ok y /\ shape y = [1%nat; ma_out_width a]) /\
  exists c, tends (line_out h net (ma_in_width a) p q o) c.
Proof.
  intros g a ps eps ni nh no si sh so h0 net h1 h p q o Wf0 P Hti Ht Hper Hnm He Hnl E Rt Ho.
  assert (A : activation_in h0 a) by (intros k Ek; destruct (Hnl k Ek) as (Lk & f' & ps' & Gk' & _); eauto).
  destruct (mlp_view g a h0 h1 h net ni nh no si sh so Wf0 P A E Rt) as (nl & dl & k1 & k2 & m & L & Wf & Ln & G & Lm & Q & Bt & Ld & Gd & _ & _ & N & Lh0).
  set (f := fun x => max_abs_normalization_last x eps) in *. set (H := ma_hidden_width a) in *. set (d := ma_in_width a) in *.
  destruct (pm_widths _ _ _ _ _ _ _ P) as (Wd1 & Wd2 & Wd3). fold d in Wd1. fold H in Wd2.
  assert (Cf : rowwise_continuous H H f) by now apply C78_normalizations_continuous.
  assert (Nl : forall k, ma_non_linearity a = Some k -> nl = k /\ exists f ps, get h k = OModule f ps /\ rowwise_continuous H H f).
  { intros k Ek. destruct (N k Ek) as (-> & Lk & ->). split; auto. now apply Hnl. }
  destruct (slots_start a f ps ni nh no si sh so Hnm) as (rest & Es & Ir). fold H d in Es, Ir. rewrite Hper in Es, Ir.
  destruct (layer_slot_sum _ ni d H si Hti) as (c & Hc & Ec). rewrite Ec in Es.
  pose proof (mlp_widths a f ps ni nh no si sh so P Hnm) as V. pose proof (b_desc _ _ _ _ _ _ Bt) as D. rewrite Es in V, D.
  inversion D as [|? ? L1 ? D1 D2]; subst. inversion D2 as [|? ? L2 ? D3 D4]; subst. rename x into kl, x0 into kf.
  inversion V as [|? V1' ? ? ? V1 V2]; subst. inversion V2 as [|? V3' ? ? ? V3 V4]; subst. destruct V3 as (_ & -> & ->). fold H in V4.
  assert (Cr : rowwise_continuous H (ma_out_width a) (run (call h) L2)).
  { apply (described_run rowwise_continuous rowwise_continuous_id rowwise_continuous_comp rowwise_continuous_ext (widths a f) h dl nl L2 rest); auto.
    intros k s W0 W4 Hk Hs Dk Io. apply (slot_continuous h nl dl a f k s); auto.
    apply Ir in Hs. assert (Ly : forall n I O s, continuous_slot (layer_slot (ma_layer_type a) n I O s None)).
    { intros n I O s'. destruct Ht as [->| ->]; cbn; [repeat split|]. repeat constructor. }
    destruct Hs as [<-|[<-|[<-|[<-|[<-|[]]]]]]; try exact Logic.I; apply Ly. }
  destruct Cr as (F & CF & VF). destruct D1 as (Lk & l & El & Hl & Cl). unfold cfg_of, pw_slot in Cl. injection Cl as C1 C2 C3 C4 C5 C6 C7.
  destruct D3 as (Lf & ps' & Gf).
  (* the outputs of the first layer are polynomials far out *)
  assert (Pl : exists n P X, forall i, (i < H)%nat -> poly_lt n (P i) /\ forall s : R, X < s -> layer_out l (fun i => p i + s * q i) i = P i s).
  { destruct (layer_pieces l 1 [] (fun s i => p i + s * q i) Hl) as (T & _ & PT); auto; [now rewrite C1|intros; apply affine_pieces|].
    exists (S ((pw_n l - 1) * 1)). rewrite C4 in PT.
    assert (U : forall k, (k <= H)%nat -> exists P X, forall i, (i < k)%nat -> poly_lt (S ((pw_n l - 1) * 1)) (P i) /\ forall s : R, X < s -> layer_out l (fun i => p i + s * q i) i = P i s).
    { induction k as [|k IH]; intros Hk; [exists (fun _ _ => 0), 0; intros; lia|]. destruct (IH ltac:(lia)) as (P' & X & HX).
      destruct (eventually_poly _ T _ (PT k ltac:(lia))) as (Pk & Y & HP & EP).
      exists (fun i => if Nat.eqb i k then Pk else P' i), (Rmax X Y). intros i Hi. pose proof (Rmax_l X Y). pose proof (Rmax_r X Y).
      destruct (Nat.eqb_spec i k) as [->|Ne].
      - split; [exact HP|]. intros s Hs. apply EP. lra.
      - destruct (HX i ltac:(lia)) as (A1 & A2). split; [exact A1|]. intros s Hs. apply A2. lra. }
    exact (U H (le_n _)). }
  destruct Pl as (n & Po & X & HP). destruct (normalised_tend H n Po eps (fun i Hi => proj1 (HP i Hi)) He) as (lim & Hlim).
  assert (Val : forall s, exists y1 y, shape y1 = [1%nat; H] /\ (forall i, (i < H)%nat -> at_ y1 [0%nat; i] = layer_out l (fun i => p i + s * q i) i) /\
    call h net (on_line d p q s) = Ok y /\ shape y = [1%nat; ma_out_width a] /\
    at_ y [0%nat; o] = F (fun j => at_ y1 [0%nat; j] / (rmax H (fun i => Rabs (at_ y1 [0%nat; i])) + eps)) o).
  { intros s. rewrite (call_unfold h net), G by auto. cbn [obj_forward]. rewrite (call_unfold h m), Q by auto. cbn [obj_forward run].
    rewrite (call_unfold h kl), El by auto. cbn [obj_forward].
    destruct (forward_rows l (on_line d p q s) 1 Hl) as (y1 & -> & S1 & V1e); [cbn [on_line shape]; now rewrite C3|]. cbn [rbind].
    rewrite C4 in S1, V1e. rewrite (call_unfold h kf), Gf by auto. cbn [obj_forward].
    destruct (max_abs_row y1 eps 1 H Wd2 S1) as (y2 & E2 & S2 & V2e). unfold f. rewrite E2. cbn [rbind].
    destruct (VF y2 1%nat S2) as (y3 & E3 & S3 & V3e). exists y1, y3. split; [exact S1|]. split; [intros i Hi; rewrite V1e by (auto; lia); reflexivity|].
    split; [exact E3|]. split; [exact S3|]. rewrite V3e by (auto; lia). apply (continuous_vec_local H (fun v => F v o)); [now apply CF|].
    intros j Hj. unfold row. apply V2e. }
  split; [intros s; destruct (Val s) as (_ & y & _ & _ & Ey & Sy & _); eauto|].
  exists (F lim o).
  apply (tends_ev (fun s => F (fun j => Po j s / (rmax H (fun i => Rabs (Po i s)) + eps)) o) _ _ (X + 1)).
  2:{ apply (tends_vec H (fun v => F v o) (fun s j => Po j s / (rmax H (fun i => Rabs (Po i s)) + eps)) lim); auto. }
  intros s Hs. unfold line_out. destruct (Val s) as (y1 & y & _ & Vy1 & -> & _ & ->).
  apply (continuous_vec_local H (fun v => F v o)); [now apply CF|]. intros j Hj.
  assert (Vy : forall i, (i < H)%nat -> at_ y1 [0%nat; i] = Po i s).
  { intros i Hi. rewrite Vy1 by assumption. rewrite <- (proj2 (HP i Hi) s) by lra. reflexivity. }
  rewrite Vy by assumption. f_equal. f_equal. apply rmax_ext. intros i Hi. cbn beta. now rewrite Vy.
Qed.
Print Assumptions C116_levels_off.

(** In particular no such network stays close to a wave, or to any function without a limit, on the whole line. *)
Theorem C116_no_wave : forall g a ps eps ni nh no si sh so h0 net h1 h p q o (f : R -> R) u v e,
  wf_heap h0 -> plain_mlp a ni nh no si sh so -> layer_type (or_string (ma_layer_type_in a) (ma_layer_type a)) ->
  ma_layer_type a = "continuous"%string \/ ma_layer_type a = "switch_continuous"%string -> ma_periodicity a = None ->
  ma_normalization a = Some (fun x => max_abs_normalization_last x eps, ps) -> 0 < eps ->
  (forall k, ma_non_linearity a = Some k -> (k < length h0)%nat /\
     exists f ps, get h0 k = OModule f ps /\ rowwise_continuous (ma_hidden_width a) (ma_hidden_width a) f) ->
  HighOrderMLP g a h0 = Ok (net, h1) -> retrained h1 h -> (o < ma_out_width a)%nat ->
  (forall X, exists s, X <= s /\ f s <= u) -> (forall X, exists s, X <= s /\ v <= f s) -> 2 * e < v - u ->
  ~ forall s, Rabs (line_out h net (ma_in_width a) p q o s - f s) <= e.
Proof.
  intros g a ps eps ni nh no si sh so h0 net h1 h p q o f u v e Wf0 P Hti Ht Hper Hnm He Hnl E Rt Ho Hu Hv Huv C.
  destruct (C116_levels_off g a ps eps ni nh no si sh so h0 net h1 h p q o Wf0 P Hti Ht Hper Hnm He Hnl E Rt Ho) as (_ & c & Tc).
  destruct (Tc ((v - u - 2 * e) / 2)) as (X & HX); [lra|]. destruct (Hu X) as (s1 & L1 & U1). destruct (Hv X) as (s2 & L2 & U2).
  pose proof (HX s1 L1) as A1. pose proof (HX s2 L2) as A2. pose proof (C s1) as B1. pose proof (C s2) as B2.
  apply Rabs_def2 in A1, A2. apply Rabs_le_between in B1, B2. lra.
Qed.
Print Assumptions C116_no_wave.

(** A network with two hidden layers and normalisation: its outputs are at most 24 for weights up to 1, wherever it is
    evaluated, and they level off; its first layer alone grows beyond all bounds (C114). *)
Definition normalised_demo : mlp_args :=
  mkMLP "continuous" (Int 4) 2 1 1 4 2 None None None false None None (Some (Int 3)) (Some (Int 3)) (Some (Int 3))
    (Some (fun x => max_abs_normalization_last x (1 / 1000000), [])) false None "constant_random"%string 0.
Lemma normalised_demo_plain : plain_mlp normalised_demo 4 4 4 3 3 3.
Proof. constructor; cbn; auto; try lia; try lra; now left. Qed.
Example C116_case : exists net h1, HighOrderMLP (fun _ _ => 1) normalised_demo [] = Ok (net, h1) /\
  (forall h p q, retrained h1 h -> exists c, tends (line_out h net 2 p q 0) c) /\
  forall h dl k1 k2 m l, retrained h1 h -> get h net = OMLP dl k1 k2 m -> get h k2 = OPiecewise l ->
    (forall ix, valid (shape (pw_w l)) ix -> Rabs (at_ (pw_w l) ix) <= 1) ->
    exists y, call h net (mkT [1; 2]%nat (fun _ => 1000)) = Ok y /\ Rabs (at_ y [0%nat; 0%nat]) <= 24.
Proof.
  assert (W0 : wf_heap []) by (intros i Hi; cbn in Hi; lia).
  destruct (mlp_spec (fun _ _ => 1) _ _ _ _ _ _ _ [] 0%nat normalised_demo_plain W0) as (net & e & ? & ? & ? & ? & ? & E & _); [discriminate|].
  exists net, ([] ++ e). split; [exact E|]. split.
  - intros h p q Rt. apply (C116_levels_off (fun _ _ => 1) normalised_demo [] (1 / 1000000) 4 4 4 3 3 3 [] net ([] ++ e) h p q 0%nat W0 normalised_demo_plain (or_introl eq_refl) (or_introl eq_refl) eq_refl eq_refl); auto; try lra.
    discriminate.
  - intros h dl k1 k2 m l Rt G Gk HW.
    destruct (C116_bounded (fun _ _ => 1) normalised_demo _ [] 4 4 4 3 3 3 [] net ([] ++ e) h dl k1 k2 m l 1 (mkT [1; 2]%nat (fun _ => 1000)) 1
      W0 normalised_demo_plain ltac:(lia) (or_introl eq_refl) (or_introl eq_refl) eq_refl eq_refl) as (y & Ey & _ & Vy); auto.
    + apply C116_normalisations; [cbn; lia|lra].
    + discriminate.
    + exists y. split; [exact Ey|]. specialize (Vy 0%nat 0%nat ltac:(lia) ltac:(cbn; lia)). cbn in Vy. lra.
Qed.
