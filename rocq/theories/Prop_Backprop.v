(** * Gradients of networks: backpropagation, and the weights that no sample reaches (C115). *)
From Coq Require Import String Reals ZArith List Lia Lra Psatz Bool Arith FunctionalExtensionality.
From Verif Require Import Spec Tensor Utils LagrangePolynomial Basis PolynomialLayers ProductLayer LagrangeND SparseLion Layers Networks Observe ObserveNet
  SumFacts TensorFacts LagrangeFacts LayerFacts SegmentFacts LayerProofs HeapFacts NetFacts NetCopy Prop_Init Prop_Bounds Prop_Represent
  Prop_Universal Prop_Lipschitz Prop_InputGrad Prop_Lion Prop_Lines.
Import ListNotations.
Local Open Scope R_scope.

(** ** Observations *)
(** What layer number [j] of the network is given: the batch after the layers before it. *)
Definition layer_input (h : heap) (net j : nat) (x : tensor R) : res (tensor R) := run (call h) (firstn j (network_layers h net)) x.
(** Layer number [j] of the network: its address and the layer. *)
Definition network_layer (h : heap) (net j k : nat) (l : piecewise) : Prop := nth_error (network_layers h net) j = Some k /\ get h k = OPiecewise l.
(** The same network with weight [ix] of the layer [l] at address [k] set to [w]. *)
Definition set_weight (h : heap) (k : nat) (l : piecewise) (ix : index) (w : R) : heap := set_obj h k (OPiecewise (with_w l (upd (pw_w l) ix w))).
(** A loss as a function of the outputs of the network, entry by entry. *)
Definition loss_after (F : (nat -> nat -> R) -> R) (r : res (tensor R)) : R := match r with Ok y => F (fun b o => at_ y [b; o]) | Err _ => 0 end.
(** [F] is differentiable at [y] with partial derivatives [delta]: the chain rule holds along every curve. *)
Definition has_gradient (B m : nat) (F : (nat -> nat -> R) -> R) (y delta : nat -> nat -> R) : Prop :=
  forall (c : R -> nat -> nat -> R) dc t0, (forall b o, (b < B)%nat -> (o < m)%nat -> c t0 b o = y b o) ->
    (forall b o, (b < B)%nat -> (o < m)%nat -> derivable_pt_lim (fun t => c t b o) t0 (dc b o)) ->
    derivable_pt_lim (fun t => F (c t)) t0 (rsum B (fun b => rsum m (fun o => delta b o * dc b o))).
(** [d] is the slope of link [(o,i)] of [l] at [x], off the knots: the number of segments times the slope of the segment's polynomial (C105). *)
Definition is_slope (l : piecewise) (o i : nat) (x d : R) : Prop :=
  exists s P D, inside (pw_segments l) s x /\ segment_polynomial l o i s P /\ derivable_pt_lim P (seg_local (pw_segments l) s x) D /\ d = INR (pw_segments l) * D.
(** [c] is what the weight at position [p] of a link contributes at [x]: the cardinal polynomial of its node if it belongs to the segment of [x], else nothing. *)
Definition is_share (l : piecewise) (p : nat) (x c : R) : Prop :=
  exists s, in_segment (pw_segments l) s x /\
    ((exists k C, (k < pw_n l)%nat /\ p = weight_pos (pw_cls l) (pw_n l) s k /\ interpolates (pw_n l) (fun j => if Nat.eqb j k then 1 else 0) C /\
       c = C (seg_local (pw_segments l) s x)) \/
     (forall k, (k < pw_n l)%nat -> p <> weight_pos (pw_cls l) (pw_n l) s k) /\ c = 0).
(** No sample of the batch gives input [i] of layer [j] a value in a segment to which position [p] belongs. *)
Definition unvisited (h : heap) (net j : nat) (x : tensor R) (B i p : nat) : Prop :=
  forall k l z, network_layer h net j k l -> layer_input h net j x = Ok z ->
  forall b q, (b < B)%nat -> (q < pw_n l)%nat -> p <> weight_pos (pw_cls l) (pw_n l) (Z.to_nat (which_segment l (at_ z [b; i]))) q.

(** ** Calculus *)
Lemma rsum_lim n (f : R -> nat -> R) d t0 : (forall i, (i < n)%nat -> derivable_pt_lim (fun t => f t i) t0 (d i)) ->
  derivable_pt_lim (fun t => rsum n (f t)) t0 (rsum n d).
Proof.
  induction n as [|n IH]; intros H; cbn [rsum]; [apply derivable_pt_lim_const|].
  apply (derivable_pt_lim_plus (fun t => rsum n (f t)) (fun t => f t n)); [apply IH; intros; apply H; lia|apply H; lia].
Qed.
Lemma lim_ext f g t0 d : (forall t, f t = g t) -> derivable_pt_lim g t0 d -> derivable_pt_lim f t0 d.
Proof. intros E D. apply (lim_local f g t0 d 1 ltac:(lra)); auto. Qed.

(** ** Errors propagated backwards through layers in sequence *)
Fixpoint backward (ls : list piecewise) (v eout ein : nat -> R) : Prop :=
  match ls with
  | [] => forall i, eout i = ein i
  | l :: ls => exists J e1, (forall o i, (o < pw_out l)%nat -> (i < pw_in l)%nat -> is_slope l o i (v i) (J o i)) /\
      (forall i, (i < pw_in l)%nat -> ein i = rsum (pw_out l) (fun o => J o i * e1 o)) /\ backward ls (layer_out l v) eout e1
  end.

Definition plain_link (l : piecewise) : Prop := pw_length l = 2 /\ pw_periodicity l = None /\ sum_class (pw_cls l).
Lemma slope_lim l o i x d : held l -> plain_link l -> is_slope l o i x d -> derivable_pt_lim (link l o i) x d.
Proof.
  intros Hl (HL & Hp & _) (s & P & D & Hin & HP & HD & ->).
  apply (lim_ext _ (link0 l o i)); [intros t; unfold link; now rewrite Hp|]. now apply (link0_lim l o i s P).
Qed.

Lemma backward_lim W ls W' : chain W ls W' -> Forall plain_link ls -> forall v dv t0 eout ein,
  (forall i, (i < W)%nat -> derivable_pt_lim (fun t => v t i) t0 (dv i)) -> backward ls (v t0) eout ein ->
  exists dy, (forall q, (q < W')%nat -> derivable_pt_lim (fun t => through ls (v t) q) t0 (dy q)) /\
    rsum W' (fun q => eout q * dy q) = rsum W (fun i => ein i * dv i).
Proof.
  induction 1 as [W|l ls W' Hl C IH]; intros Pl v dv t0 eout ein Dv Bw; cbn [through backward] in *.
  - exists dv. split; [exact Dv|]. apply rsum_ext. intros i _. now rewrite Bw.
  - destruct Bw as (J & e1 & HJ & HE & Bw). pose proof (Forall_inv Pl) as P0. pose proof (Forall_inv_tail Pl) as Pt.
    destruct (IH Pt (fun t => layer_out l (v t)) (fun o => rsum (pw_in l) (fun i => J o i * dv i)) t0 eout e1) as (dy & Dy & Ey); [|exact Bw|].
    + intros o Ho. apply (lim_ext _ (fun t => rsum (pw_in l) (fun i => link l o i (v t i)))); [intros t; apply layer_out_sum; auto; apply P0|].
      apply (rsum_lim (pw_in l) (fun t i => link l o i (v t i)) (fun i => J o i * dv i)). intros i Hi.
      apply (derivable_pt_lim_comp (fun t => v t i) (link l o i)); [now apply Dv|]. apply slope_lim; auto.
    + exists dy. split; [exact Dy|]. rewrite Ey.
      rewrite (rsum_ext (pw_in l) (fun i => ein i * dv i) (fun i => rsum (pw_out l) (fun o => e1 o * (J o i * dv i)))).
      * rewrite rsum_swap. apply rsum_ext. intros o Ho. rewrite <- rsum_scal. reflexivity.
      * intros i Hi. rewrite HE by exact Hi. rewrite Rmult_comm, <- rsum_scal. apply rsum_ext. intros; ring.
Qed.

(** ** The layers of a network *)
Definition cls_of (t : string) : pw_class := if string_dec t "continuous" then PiecewisePolynomial else PiecewiseDiscontinuousPolynomial.
Lemma mlp_layers g t n d m K H si sh so h0 net h1 : wf_heap h0 -> layer_type t ->
  (1 <= n)%nat -> (1 <= d)%nat -> (1 <= m)%nat -> (1 <= H)%nat -> (1 <= si)%nat -> (1 <= sh)%nat -> (1 <= so)%nat ->
  HighOrderMLP g (layers_only t n d m K H si sh so) h0 = Ok (net, h1) -> NoDup (network_layers h1 net) /\
  forall h, retrained h1 h -> wf_heap h /\ network_layers h net = network_layers h1 net /\
  exists ls, Forall2 (fun k l => get h k = OPiecewise l) (network_layers h1 net) ls /\ Forall held ls /\ Forall plain_link ls /\ map cfg_of ls = mlp_configs (cls_of t) n d m K H si sh so /\ length ls = (K + 2)%nat /\ chain d ls m /\
    (forall x B, shape x = [B; d] -> exists y, call h net x = Ok y /\ shape y = [B; m] /\
      forall b o, (b < B)%nat -> (o < m)%nat -> at_ y [b; o] = through ls (row x b) o).
Proof.
  intros Wf Ht Hn Hd Hm HH Hsi Hsh Hso E.
  set (c := cls_of t).
  assert (Tc : t = "continuous"%string /\ c = PiecewisePolynomial \/ t = "discontinuous"%string /\ c = PiecewiseDiscontinuousPolynomial).
  { destruct Ht as [->| ->]; [left|right]; split; reflexivity. }
  assert (Sc : sum_class c) by (destruct Tc as [(_ & ->)|(_ & ->)]; [now left|now right]). clearbody c.
  destruct (mlp_sequence g t c n d m K H si sh so h0 net h1 Wf Tc Hn Hd Hm HH Hsi Hsh Hso E) as (L & _ & P).
  assert (EL : network_layers h1 net = L) by (destruct (P h1 (NetCopy.retrained_refl _)); assumption).
  set (a := layers_only t n d m K H si sh so) in *.
  assert (Rt : refinable_type t) by (unfold refinable_type, layer_type in *; tauto).
  assert (Pm : plain_mlp a n n n si sh so) by now apply layers_only_plain.
  destruct (mlp_view g a h0 h1 h1 net n n n si sh so Wf Pm ltac:(intros k Ek; discriminate) E (NetCopy.retrained_refl _))
    as (nl & dl & k1 & k2 & q & L0 & Wh & Ln & G & Lq & Q & B & _).
  assert (W1 : wf_heap h1) by exact Wh.
  split.
  { rewrite EL. destruct (P h1 (NetCopy.retrained_refl _)) as (EL' & ls & F & _).
    unfold network_layers, model_of in EL'. rewrite G, Q in EL'. pose proof (b_leaves _ _ _ _ _ _ B) as Nd. rewrite <- EL' in F |- *.
    assert (A : forall k, In k (filter (fun k => is_layer (get h1 k)) L0) -> exists l, get h1 k = OPiecewise l).
    { clear - F. induction F as [|k l L ls Gk F IH]; intros j Hj; [destruct Hj|]. destruct Hj as [<-|Hj]; [eauto|now apply IH]. }
    clear - Nd A. induction L0 as [|k L IH]; cbn [filter] in *; [constructor|]. cbn [flat_map] in Nd.
    assert (NT : NoDup (flat_map (leaves h1) L)) by (revert Nd; generalize (leaves h1 k); clear; intros A; induction A as [|x A IHA]; cbn [app]; intros Nd; [exact Nd|apply IHA; now inversion Nd]).
    destruct (is_layer (get h1 k)) eqn:Ik; [|now apply IH].
    assert (A' : forall j, In j (filter (fun k => is_layer (get h1 k)) L) -> exists l, get h1 j = OPiecewise l) by (intros j Hj; apply A; now right).
    constructor; [|now apply IH]. intros Hin. destruct (A k (or_introl eq_refl)) as (l & Gk). unfold leaves at 1 in Nd. rewrite Gk in Nd. cbn [app] in Nd.
    inversion Nd as [|? ? N1 N2]; subst. apply N1. apply in_flat_map. exists k. split; [now apply filter_In in Hin|]. unfold leaves. rewrite Gk. now left. }
  intros h Rh. split; [now apply (retrained_wf h1)|]. rewrite EL. destruct (P h Rh) as (EL' & ls & F & Hh & Cf & Ch & R). split; [exact EL'|].
  exists ls. split; [exact F|]. split; [exact Hh|]. split; [|split; [exact Cf|split; [|split; [exact Ch|exact R]]]].
  - assert (Sm : Forall simple (map cfg_of ls)).
    { rewrite Cf. assert (A : forall I O s, simple (pw_slot c n I O s None)) by (intros; split; [reflexivity|split; [reflexivity|exact Sc]]).
      unfold mlp_configs. constructor; [apply A|]. apply Forall_app. split; [|constructor; [apply A|constructor]].
      apply Forall_forall. intros x Hx. apply repeat_spec in Hx. subst x. apply A. }
    apply Forall_forall. intros l Hl. rewrite Forall_forall in Sm. specialize (Sm (cfg_of l) (in_map cfg_of ls l Hl)). exact Sm.
  - rewrite <- (map_length cfg_of), Cf. unfold mlp_configs. cbn [length]. rewrite app_length, repeat_length. cbn. lia.
Qed.

(** ** Layers given by position *)
Lemma Forall2_nth {A B} (R : A -> B -> Prop) L ls j k l : Forall2 R L ls -> nth_error L j = Some k -> nth_error ls j = Some l -> R k l.
Proof.
  intros F. revert j. induction F as [|a b L ls Rab F IH]; intros [|j] E1 E2; cbn in *; try discriminate.
  - injection E1 as <-. injection E2 as <-. exact Rab.
  - now apply (IH j).
Qed.
Lemma Forall2_firstn {A B} (R : A -> B -> Prop) L ls j : Forall2 R L ls -> Forall2 R (firstn j L) (firstn j ls).
Proof. intros F. revert j. induction F as [|a b L ls Rab F IH]; intros [|j]; cbn; constructor; auto. Qed.
Lemma chain_split W ls W' j l : chain W ls W' -> nth_error ls j = Some l -> chain W (firstn j ls) (pw_in l) /\ held l /\ chain (pw_out l) (skipn (S j) ls) W'.
Proof.
  intros C. revert j. induction C as [W|l0 ls W' Hl C IH]; intros [|j] E; cbn [nth_error] in E; try discriminate.
  - injection E as <-. cbn [firstn skipn]. split; [constructor|]. auto.
  - destruct (IH j E) as (A1 & A2 & A3). cbn [firstn skipn]. split; [now constructor|]. auto.
Qed.
Lemma split_nth {A} (ls : list A) j l : nth_error ls j = Some l -> ls = firstn j ls ++ l :: skipn (S j) ls.
Proof.
  revert j. induction ls as [|x ls IH]; intros [|j] E; cbn [nth_error] in E; try discriminate.
  - injection E as <-. reflexivity.
  - cbn [firstn app]. f_equal. exact (IH j E).
Qed.

Definition agreeing (l l' : piecewise) (v : nat -> R) : Prop := forall o i q, (o < pw_out l)%nat -> (i < pw_in l)%nat -> (q < pw_n l)%nat ->
  let p := weight_pos (pw_cls l) (pw_n l) (Z.to_nat (which_segment l (v i))) q in at_ (pw_w l') [o; i; p] = at_ (pw_w l) [o; i; p].
Fixpoint agree (ls ls' : list piecewise) (v : nat -> R) : Prop :=
  match ls, ls' with l :: ls, l' :: ls' => agreeing l l' v /\ agree ls ls' (layer_out l v) | _, _ => True end.
Lemma agree_nth ls : forall ls' v, (forall j l l', nth_error ls j = Some l -> nth_error ls' j = Some l' -> agreeing l l' (through (firstn j ls) v)) -> agree ls ls' v.
Proof.
  induction ls as [|l ls IH]; intros [|l' ls'] v A; cbn [agree]; auto. split; [exact (A 0%nat l l' eq_refl eq_refl)|].
  apply IH. intros j a a' Ea Ea'. exact (A (S j) a a' Ea Ea').
Qed.
Lemma same_through W ls W' : chain W ls W' -> forall ls', Forall2 (fun l l' => held l /\ held l' /\ cfg_of l = cfg_of l') ls ls' ->
  forall v v', (forall i, (i < W)%nat -> v' i = v i) -> agree ls ls' v -> forall o, (o < W')%nat -> through ls' v' o = through ls v o.
Proof.
  induction 1 as [W|l ls W' Hl C IH]; intros ls' F v v' Ev A o Ho.
  - inversion F; subst. cbn. auto.
  - destruct ls' as [|l' ls']; [inversion F|]. assert (Fh : held l /\ held l' /\ cfg_of l = cfg_of l') by now inversion F.
    assert (Ft : Forall2 (fun l l' => held l /\ held l' /\ cfg_of l = cfg_of l') ls ls') by now inversion F. destruct A as (A1 & A2). cbn [through].
    destruct Fh as (_ & Hl' & Ec). destruct (same_layer l l' Hl Hl' Ec) as (Sw & Ew). apply IH; auto. intros q Hq.
    rewrite <- Ew. transitivity (layer_out (with_w l (pw_w l)) v q); [|destruct l; reflexivity].
    transitivity (layer_out (with_w l (pw_w l')) v q); [apply layer_out_local; [now apply with_w_held|exact Hq|exact Ev]|].
    apply locality; auto. intros i p Hi Hp. now apply A1.
Qed.

Lemma set_retrained h k l w : get h k = OPiecewise l -> shape w = shape (pw_w l) -> retrained h (set_obj h k (OPiecewise (with_w l w))).
Proof.
  intros Gk Sw. pose proof (get_pw_lt _ _ _ Gk) as Lk. split; [now apply set_obj_length|]. intros i Hi. destruct (Nat.eq_dec k i) as [<-|Ne].
  - rewrite get_set_same, Gk by auto. now constructor.
  - rewrite get_set_other by auto. constructor.
Qed.

Section Net.
Variables (g : nat -> index -> R) (t : string) (n d m K H si sh so : nat) (h0 : heap) (net : nat) (h1 : heap).
Hypotheses (Wf : wf_heap h0) (Ht : layer_type t) (Hn : (1 <= n)%nat) (Hd : (1 <= d)%nat) (Hm : (1 <= m)%nat) (HH : (1 <= H)%nat)
  (Hsi : (1 <= si)%nat) (Hsh : (1 <= sh)%nat) (Hso : (1 <= so)%nat) (E : HighOrderMLP g (layers_only t n d m K H si sh so) h0 = Ok (net, h1)).
Let L := network_layers h1 net.

(** Everything about one state of the network. *)
Lemma state h : retrained h1 h -> exists ls, Forall2 (fun k l => get h k = OPiecewise l) L ls /\ Forall held ls /\ Forall plain_link ls /\ map cfg_of ls = mlp_configs (cls_of t) n d m K H si sh so /\ length ls = (K + 2)%nat /\ chain d ls m /\
  (forall j k l, network_layer h net j k l <-> nth_error L j = Some k /\ nth_error ls j = Some l) /\
  (forall x B, shape x = [B; d] -> exists y, call h net x = Ok y /\ shape y = [B; m] /\
      forall b o, (b < B)%nat -> (o < m)%nat -> at_ y [b; o] = through ls (row x b) o) /\
  (forall j l x B, nth_error ls j = Some l -> shape x = [B; d] -> exists z, layer_input h net j x = Ok z /\ shape z = [B; pw_in l] /\
      forall b i, (b < B)%nat -> (i < pw_in l)%nat -> at_ z [b; i] = through (firstn j ls) (row x b) i).
Proof.
  intros Rh. destruct (mlp_layers g t n d m K H si sh so h0 net h1 Wf Ht Hn Hd Hm HH Hsi Hsh Hso E) as (_ & P).
  destruct (P h Rh) as (Wh & EL & ls & F & Hh & Pl & Cf & Ln & Ch & R). fold L in EL, F. exists ls.
  split; [exact F|]. split; [exact Hh|]. split; [exact Pl|]. split; [exact Cf|]. split; [exact Ln|]. split; [exact Ch|]. split; [|split; [exact R|]].
  - intros j k l. unfold network_layer. rewrite EL. split; intros (A1 & A2); split; auto.
    + destruct (nth_error ls j) as [l'|] eqn:El.
      * pose proof (Forall2_nth _ _ _ _ _ _ F A1 El) as X. cbn beta in X. rewrite A2 in X. injection X as <-. reflexivity.
      * exfalso. apply nth_error_None in El. assert (X : (j < length L)%nat) by (apply nth_error_Some; congruence). rewrite (Forall2_len _ _ _ F) in X. lia.
    + exact (Forall2_nth _ _ _ _ _ _ F A1 A2).
  - intros j l x B El Hx. destruct (chain_split _ _ _ _ _ Ch El) as (C1 & _).
    unfold layer_input. rewrite EL. apply (run_through h _ (firstn j ls) d (pw_in l) Wh); auto. now apply Forall2_firstn.
Qed.

Lemma replaced h ls j k l w ls' : retrained h1 h -> Forall2 (fun k l => get h k = OPiecewise l) L ls -> nth_error L j = Some k -> nth_error ls j = Some l ->
  Forall2 (fun k' l' => get (set_obj h k (OPiecewise (with_w l w))) k' = OPiecewise l') L ls' ->
  ls' = firstn j ls ++ with_w l w :: skipn (S j) ls.
Proof.
  intros Rh F Ek El F'. destruct (mlp_layers g t n d m K H si sh so h0 net h1 Wf Ht Hn Hd Hm HH Hsi Hsh Hso E) as (Nd & _). fold L in Nd.
  pose proof (Forall2_nth _ _ _ _ _ _ F Ek El) as Gk. cbn beta in Gk. pose proof (get_pw_lt _ _ _ Gk) as Lk.
  revert F F' Nd j Ek El. clear - Lk. intros F. revert ls'. induction F as [|a b L ls Gab F IH]; intros ls' F' Nd j Ek El; [destruct j; discriminate|].
  destruct ls' as [|b' ls']; [inversion F'|]. assert (G' : get (set_obj h k (OPiecewise (with_w l w))) a = OPiecewise b') by now inversion F'.
  assert (F'' : Forall2 (fun k' l' => get (set_obj h k (OPiecewise (with_w l w))) k' = OPiecewise l') L ls') by now inversion F'.
  assert (Na : ~ In a L /\ NoDup L) by now inversion Nd. destruct Na as (Na & Nd').
  destruct j as [|j]; cbn [nth_error] in Ek, El.
  - injection Ek as ->. injection El as ->. rewrite get_set_same in G' by exact Lk. injection G' as <-. cbn [firstn skipn app]. f_equal.
    clear - F F'' Na Lk. revert ls' F''. induction F as [|a b L ls Gab F IH]; intros ls' F''; [inversion F''; reflexivity|].
    destruct ls' as [|b' ls']; [inversion F''|]. assert (G' : get (set_obj h k (OPiecewise (with_w l w))) a = OPiecewise b') by now inversion F''.
    rewrite get_set_other in G' by (auto; intros ->; apply Na; now left). f_equal; [congruence|]. apply IH; [intros X; apply Na; now right|now inversion F''].
  - rewrite get_set_other in G' by (auto; intros ->; apply Na; eapply nth_error_In; exact Ek). cbn [firstn skipn app]. f_equal; [congruence|].
    now apply (IH ls' F'' Nd' j).
Qed.

(** ** Weights that no sample reaches *)
Lemma unreached h h' x B : retrained h1 h -> retrained h1 h' -> shape x = [B; d] ->
  (forall j k l l' z, network_layer h net j k l -> network_layer h' net j k l' -> layer_input h net j x = Ok z ->
     forall b o i q, (b < B)%nat -> (o < pw_out l)%nat -> (i < pw_in l)%nat -> (q < pw_n l)%nat ->
     let p := weight_pos (pw_cls l) (pw_n l) (Z.to_nat (which_segment l (at_ z [b; i]))) q in at_ (pw_w l') [o; i; p] = at_ (pw_w l) [o; i; p]) ->
  exists y y', call h net x = Ok y /\ call h' net x = Ok y' /\ shape y = [B; m] /\ shape y' = [B; m] /\
    forall b o, (b < B)%nat -> (o < m)%nat -> at_ y' [b; o] = at_ y [b; o].
Proof.
  intros Rh Rh' Hx A.
  destruct (state h Rh) as (ls & F & Hh & Pl & Cf & Ln & Ch & NL & R & LI). destruct (state h' Rh') as (ls' & F' & Hh' & Pl' & Cf' & Ln' & Ch' & NL' & R' & LI').
  destruct (R x B Hx) as (y & Ey & Sy & Hy). destruct (R' x B Hx) as (y' & Ey' & Sy' & Hy'). exists y, y'.
  split; [exact Ey|]. split; [exact Ey'|]. split; [exact Sy|]. split; [exact Sy'|]. intros b o Hb Ho. rewrite Hy, Hy' by auto.
  assert (LL : length L = (K + 2)%nat) by (rewrite (Forall2_len _ _ _ F); exact Ln).
  assert (Lm : Forall2 (fun l l' => held l /\ held l' /\ cfg_of l = cfg_of l') ls ls').
  { clear - Hh Hh' Cf Cf'. rewrite <- Cf' in Cf. clear Cf'. revert ls' Hh' Cf. induction ls as [|l ls IH]; intros [|l' ls'] Hh' Cf; cbn [map] in Cf; try discriminate; constructor.
    - assert (X : cfg_of l = cfg_of l') by (unfold cfg_of in *; congruence). split; [now apply Forall_inv in Hh|split; [now apply Forall_inv in Hh'|exact X]].
    - apply IH; [now apply Forall_inv_tail in Hh|now apply Forall_inv_tail in Hh'|congruence]. }
  apply (same_through d ls m Ch ls' Lm (row x b) (row x b)); auto. apply agree_nth. intros j l l' El El'.
  destruct (nth_error L j) as [k|] eqn:Ek; [|exfalso; apply nth_error_None in Ek; assert (X : (j < length ls)%nat) by (apply nth_error_Some; congruence); lia].
  destruct (LI j l x B El Hx) as (z & Ez & Sz & Hz). intros o' i q Ho' Hi Hq. cbv zeta. rewrite <- Hz by auto.
  apply (A j k l l' z); auto; [apply NL; auto|apply NL'; auto].
Qed.
End Net.

(** ** Weights that no sample reaches *)
(** Two states of a network that differ only in weights which no sample of the batch reaches have the same outputs. *)
Theorem C115_unreached : forall g t n d m K H si sh so h0 net h1 h h' x B,
  wf_heap h0 -> layer_type t -> (1 <= n)%nat -> (1 <= d)%nat -> (1 <= m)%nat -> (1 <= H)%nat -> (1 <= si)%nat -> (1 <= sh)%nat -> (1 <= so)%nat ->
  HighOrderMLP g (layers_only t n d m K H si sh so) h0 = Ok (net, h1) -> retrained h1 h -> retrained h1 h' -> shape x = [B; d] ->
  (forall j k l l' z, network_layer h net j k l -> network_layer h' net j k l' -> layer_input h net j x = Ok z ->
     forall b o i q, (b < B)%nat -> (o < pw_out l)%nat -> (i < pw_in l)%nat -> (q < pw_n l)%nat ->
     let p := weight_pos (pw_cls l) (pw_n l) (Z.to_nat (which_segment l (at_ z [b; i]))) q in at_ (pw_w l') [o; i; p] = at_ (pw_w l) [o; i; p]) ->
  exists y y', call h net x = Ok y /\ call h' net x = Ok y' /\ shape y = [B; m] /\ shape y' = [B; m] /\
    forall b o, (b < B)%nat -> (o < m)%nat -> at_ y' [b; o] = at_ y [b; o].
Proof.
  intros g t n d m K H si sh so h0 net h1 h h' x B Wf Ht Hn Hd Hm HH Hsi Hsh Hso E. apply (unreached g t n d m K H si sh so h0 net h1 Wf Ht Hn Hd Hm HH Hsi Hsh Hso E).
Qed.
Print Assumptions C115_unreached.

(** The gradient of such a weight is zero, whatever the loss. *)
Theorem C115_unreached_gradient : forall g t n d m K H si sh so h0 net h1 h x B j k l o i p F w,
  wf_heap h0 -> layer_type t -> (1 <= n)%nat -> (1 <= d)%nat -> (1 <= m)%nat -> (1 <= H)%nat -> (1 <= si)%nat -> (1 <= sh)%nat -> (1 <= so)%nat ->
  HighOrderMLP g (layers_only t n d m K H si sh so) h0 = Ok (net, h1) -> retrained h1 h -> shape x = [B; d] ->
  network_layer h net j k l -> unvisited h net j x B i p ->
  (forall y y', (forall b q, (b < B)%nat -> (q < m)%nat -> y b q = y' b q) -> F y = F y') ->
  derivable_pt_lim (fun w => loss_after F (call (set_weight h k l [o; i; p] w) net x)) w 0.
Proof.
  intros g t n d m K H si sh so h0 net h1 h x B j k l o i p F w Wf Ht Hn Hd Hm HH Hsi Hsh Hso E Rh Hx NL U FE.
  assert (Q : forall w, loss_after F (call (set_weight h k l [o; i; p] w) net x) = loss_after F (call h net x)).
  { intros w'. set (h' := set_weight h k l [o; i; p] w'). destruct NL as (Ek & Gk).
    assert (Rh' : retrained h1 h') by (apply (NetCopy.retrained_trans h1 h); [exact Rh|]; now apply set_retrained).
    destruct (unreached g t n d m K H si sh so h0 net h1 Wf Ht Hn Hd Hm HH Hsi Hsh Hso E h h' x B Rh Rh' Hx) as (y & y' & Ey & Ey' & _ & _ & Hy).
    - intros j2 k2 l2 l2' z (Ek2 & G2) (_ & G2') Ez b o2 i2 q Hb Ho2 Hi2 Hq. cbv zeta. unfold h', set_weight in G2'. pose proof (get_pw_lt _ _ _ Gk) as Lk.
      destruct (Nat.eq_dec k k2) as [<-|Ne].
      + rewrite get_set_same in G2' by exact Lk. injection G2' as <-. assert (l2 = l) by congruence. subst l2. cbn [with_w pw_w].
        destruct (list_eq_dec Nat.eq_dec [o2; i2; weight_pos (pw_cls l) (pw_n l) (Z.to_nat (which_segment l (at_ z [b; i2]))) q] [o; i; p]) as [Ei|Ni]; [|now apply upd_other].
        injection Ei as <- <- Ep. exfalso. assert (j2 = j).
        { destruct (mlp_layers g t n d m K H si sh so h0 net h1 Wf Ht Hn Hd Hm HH Hsi Hsh Hso E) as (Nd & P). destruct (P h Rh) as (_ & EL & _). rewrite <- EL in Nd.
          rewrite NoDup_nth_error in Nd. apply Nd; [apply nth_error_Some; congruence|congruence]. }
        subst j2. apply (U k l z (conj Ek Gk) Ez b q Hb Hq). auto.
      + rewrite get_set_other in G2' by auto. congruence.
    - rewrite Ey, Ey'. cbn [loss_after]. apply FE. exact Hy. }
  apply (lim_ext _ (fun _ => loss_after F (call h net x))); [exact Q|apply derivable_pt_lim_const].
Qed.
Print Assumptions C115_unreached_gradient.

(** ** Training a network with SparseLion *)
(** Each step: the optimizer is given the partial derivatives of some loss in the weights of layer [j] (where they exist) and moves the network:
    the weights of layer [j] become the optimizer's, the other layers may get any weights. The trace lists the states and batches. *)
Inductive net_trained (gi pi net j d m : nat) : list group -> heap -> list (heap * tensor R) -> list group -> heap -> Prop :=
| nt_nil opt h : net_trained gi pi net j d m opt h [] opt h
| nt_step opt h k l x B F gr grads p h2 tr opt' h' :
    network_layer h net j k l -> shape x = [B; d] ->
    (forall y y', (forall b q, (b < B)%nat -> (q < m)%nat -> y b q = y' b q) -> F y = F y') ->
    (forall ix D, derivable_pt_lim (fun w => loss_after F (call (set_weight h k l ix w) net x)) (at_ (pw_w l) ix) D -> at_ gr ix = D) ->
    grads gi pi = Some gr -> parameter (SparseLion_step opt grads) gi pi = Some p ->
    retrained h h2 -> network_layer h2 net j k (with_w l (pa_data p)) ->
    net_trained gi pi net j d m (SparseLion_step opt grads) h2 tr opt' h' ->
    net_trained gi pi net j d m opt h ((h, x) :: tr) opt' h'.

(** Weights that no batch reached while it was used keep their value, in every layer. *)
Theorem C115_training : forall g t n d m K H si sh so h0 net h1 gi pi j opt h tr opt' h' k l l' o i p q,
  wf_heap h0 -> layer_type t -> (1 <= n)%nat -> (1 <= d)%nat -> (1 <= m)%nat -> (1 <= H)%nat -> (1 <= si)%nat -> (1 <= sh)%nat -> (1 <= so)%nat ->
  HighOrderMLP g (layers_only t n d m K H si sh so) h0 = Ok (net, h1) -> retrained h1 h ->
  net_trained gi pi net j d m opt h tr opt' h' -> network_layer h net j k l -> network_layer h' net j k l' ->
  parameter opt gi pi = Some q -> pa_data q = pw_w l ->
  (forall hx x B, In (hx, x) tr -> shape x = [B; d] -> unvisited hx net j x B i p) ->
  at_ (pw_w l') [o; i; p] = at_ (pw_w l) [o; i; p].
Proof.
  intros g t n d m K H si sh so h0 net h1 gi pi j opt h tr opt' h' k l l' o i p q Wf Ht Hn Hd Hm HH Hsi Hsh Hso E Rh T.
  revert k l l' q Rh. induction T as [opt h|opt h k0 l0 x B F gr grads p0 h2 tr opt' h' NL Hx FE G Eg Ep R2 NL2 T IH]; intros k l l' q Rh NLl NLl' Hq Dq U.
  - destruct NLl as (_ & A), NLl' as (_ & A'). congruence.
  - assert (k0 = k) by (destruct NL as (A & _), NLl as (A' & _); congruence). subst k0. assert (l0 = l) by (destruct NL as (_ & A), NLl as (_ & A'); congruence). subst l0.
    assert (Z : at_ gr [o; i; p] = 0).
    { apply G. eapply (C115_unreached_gradient g t n d m K H si sh so h0 net h1 h x B j); eauto. apply U; [now left|exact Hx]. }
    assert (Rh2 : retrained h1 h2) by now apply (NetCopy.retrained_trans h1 h).
    rewrite (IH k (with_w l (pa_data p0)) l' p0 Rh2 NL2 NLl' Ep eq_refl); [|intros hx x' B' Hin Hx'; apply U; [now right|exact Hx']].
    cbn [with_w pw_w]. rewrite <- Dq. unfold parameter in Hq, Ep. destruct (nth_error opt gi) as [gg|] eqn:Eo; [|discriminate].
    destruct (C31_step opt grads gi pi gg q Eo Hq) as (g' & p' & A1 & A2 & _ & _ & _ & M). rewrite A1, A2 in Ep. injection Ep as <-.
    rewrite Eg in M. destruct M as [_ M]. apply M, Z.
Qed.
Print Assumptions C115_training.

(** In particular weights of the first layer in segments where no data ever fell. *)
Theorem C115_training_first_layer : forall g t n d m K H si sh so h0 net h1 gi pi opt h tr opt' h' k l l' o i p q,
  wf_heap h0 -> layer_type t -> (1 <= n)%nat -> (1 <= d)%nat -> (1 <= m)%nat -> (1 <= H)%nat -> (1 <= si)%nat -> (1 <= sh)%nat -> (1 <= so)%nat ->
  HighOrderMLP g (layers_only t n d m K H si sh so) h0 = Ok (net, h1) -> retrained h1 h ->
  net_trained gi pi net 0 d m opt h tr opt' h' -> network_layer h net 0 k l -> network_layer h' net 0 k l' ->
  parameter opt gi pi = Some q -> pa_data q = pw_w l ->
  (forall hx x B, In (hx, x) tr -> shape x = [B; d] -> forall b r, (b < B)%nat -> (r < n)%nat ->
     p <> weight_pos (pw_cls l) n (Z.to_nat (which_segment l (at_ x [b; i]))) r) ->
  at_ (pw_w l') [o; i; p] = at_ (pw_w l) [o; i; p].
Proof.
  intros g t n d m K H si sh so h0 net h1 gi pi opt h tr opt' h' k l l' o i p q Wf Ht Hn Hd Hm HH Hsi Hsh Hso E Rh T NL NL' Hq Dq U.
  assert (Tr : forall hx x, In (hx, x) tr -> retrained h1 hx).
  { revert Rh. clear - T. induction T as [opt h|opt h k0 l0 x B F gr grads p0 h2 tr opt' h' NL Hx FE G Eg Ep R2 NL2 T IH]; intros Rh hx x' Hin; [destruct Hin|].
    destruct Hin as [Ei|Hin]; [injection Ei as <- <-; exact Rh|]. apply (IH (NetCopy.retrained_trans h1 h h2 Rh R2) hx x' Hin). }
  apply (C115_training g t n d m K H si sh so h0 net h1 gi pi 0 opt h tr opt' h' k l l' o i p q); auto.
  intros hx x B Hin Hx k2 l2 z NL2 Ez b r Hb Hr. injection Ez as <-. specialize (Tr hx x Hin).
  destruct (state g t n d m K H si sh so h0 net h1 Wf Ht Hn Hd Hm HH Hsi Hsh Hso E h Rh) as (ls & F & Hh & Pl & Cf & Ln & Ch & NLs & _).
  destruct (state g t n d m K H si sh so h0 net h1 Wf Ht Hn Hd Hm HH Hsi Hsh Hso E hx Tr) as (ls2 & F2 & Hh2 & Pl2 & Cf2 & Ln2 & Ch2 & NLs2 & _).
  apply NLs in NL. apply NLs2 in NL2. destruct NL as (_ & El), NL2 as (_ & El2).
  assert (Ec : cfg_of l2 = cfg_of l).
  { pose proof (map_nth_error cfg_of 0 ls El) as X. pose proof (map_nth_error cfg_of 0 ls2 El2) as X2. rewrite Cf in X. rewrite Cf2 in X2. congruence. }
  assert (En : pw_n l = n).
  { pose proof (map_nth_error cfg_of 0 ls El) as X. rewrite Cf in X. unfold mlp_configs in X. cbn [nth_error] in X. unfold cfg_of, pw_slot in X. congruence. }
  destruct (chain_split _ _ _ _ _ Ch El) as (_ & Hl & _). destruct (chain_split _ _ _ _ _ Ch2 El2) as (_ & Hl2 & _).
  destruct (same_layer l l2 Hl Hl2 (eq_sym Ec)) as (_ & Ew). rewrite <- Ew in *. cbn [with_w pw_cls pw_n] in *. rewrite En in *.
  change (which_segment (with_w l (pw_w l2)) (at_ x [b; i])) with (which_segment l (at_ x [b; i])). eapply U; eauto.
Qed.
Print Assumptions C115_training_first_layer.

(** ** Backpropagation *)
(** Slopes [J] of the links and errors [e] of the layers from [j0] on: [e j b i] is the error at input [i] of layer [j] for sample [b]. *)
Definition errors (h : heap) (net : nat) (x : tensor R) (B j0 : nat) (J : nat -> nat -> nat -> nat -> R) (e : nat -> nat -> nat -> R) : Prop :=
  forall j k l z, (j0 <= j)%nat -> network_layer h net j k l -> layer_input h net j x = Ok z -> forall b i, (b < B)%nat -> (i < pw_in l)%nat ->
    (forall o, (o < pw_out l)%nat -> is_slope l o i (at_ z [b; i]) (J j b o i)) /\
    e j b i = rsum (pw_out l) (fun o => J j b o i * e (S j) b o).

Lemma finite_choice {A} B (P : nat -> A -> Prop) (a0 : A) : (forall b, (b < B)%nat -> exists f, P b f) -> exists F, forall b, (b < B)%nat -> P b (F b).
Proof.
  induction B as [|B IH]; intros Q; [exists (fun _ => a0); intros; lia|]. destruct IH as (F & HF); [intros; apply Q; lia|]. destruct (Q B (le_n _)) as (f & Hf).
  exists (fun b => if Nat.eqb b B then f else F b). intros b Hb. destruct (Nat.eqb_spec b B) as [->|]; [exact Hf|]. apply HF. lia.
Qed.
Lemma backward_nth ls : forall v (e : nat -> nat -> R) (J : nat -> nat -> nat -> R),
  (forall j l, nth_error ls j = Some l -> forall i, (i < pw_in l)%nat ->
     (forall o, (o < pw_out l)%nat -> is_slope l o i (through (firstn j ls) v i) (J j o i)) /\ e j i = rsum (pw_out l) (fun o => J j o i * e (S j) o)) ->
  backward ls v (e (length ls)) (e 0%nat).
Proof.
  induction ls as [|l ls IH]; intros v e J A; cbn [backward length]; [reflexivity|].
  exists (J 0%nat), (e 1%nat). split; [intros o i Ho Hi; now apply (A 0%nat l eq_refl)|]. split; [intros i Hi; now apply (A 0%nat l eq_refl)|].
  apply (IH (layer_out l v) (fun j => e (S j)) (fun j => J (S j))). intros j a Ea. exact (A (S j) a Ea).
Qed.
Lemma through_skip ls a i v : through (firstn i (skipn a ls)) (through (firstn a ls) v) = through (firstn (a + i) ls) v.
Proof.
  revert a v. induction ls as [|l ls IH]; intros a v; [rewrite skipn_nil, !firstn_nil; reflexivity|]. destruct a as [|a]; [reflexivity|]. cbn [skipn firstn Nat.add through]. apply IH.
Qed.

Lemma weight_affine l v o o' i' p w : held l -> sum_class (pw_cls l) -> (o < pw_out l)%nat -> (i' < pw_in l)%nat ->
  layer_out (with_w l (upd (pw_w l) [o'; i'; p] w)) v o = layer_out l v o + (w - at_ (pw_w l) [o'; i'; p]) *
    (if Nat.eqb o o' then
       interp (pw_n l) 2 (fun k => delta_at (weight_pos (pw_cls l) (pw_n l) (Z.to_nat (which_segment l (v i'))) k) p)
         (x_local l (apply_periodicity (pw_periodicity l) (v i')) (which_segment l (v i')))
     else 0).
Proof.
  intros H Hc Ho Hi. set (D := if Nat.eqb o o' then _ else 0).
  rewrite layer_out_sum; auto; [|now apply with_w_held]. rewrite layer_out_sum by auto. cbn [pw_in with_w].
  rewrite (rsum_ext _ _ (fun i => link l o i (v i) + (w - at_ (pw_w l) [o'; i'; p]) * (D * (if Nat.eqb i i' then 1 else 0)))).
  - rewrite rsum_plus, rsum_scal. rewrite (rsum_delta (pw_in l) i' (fun _ => D)) by auto. ring.
  - intros i _. rewrite link_upd by auto. f_equal. f_equal. unfold D.
    destruct (Nat.eqb o o'); cbn [andb]; [|ring].
    destruct (Nat.eqb_spec i i') as [->|]; ring.
Qed.
Lemma share_eq l p x c : held l -> plain_link l -> is_share l p x c ->
  interp (pw_n l) 2 (fun k => delta_at (weight_pos (pw_cls l) (pw_n l) (Z.to_nat (which_segment l x)) k) p) (x_local l (apply_periodicity (pw_periodicity l) x) (which_segment l x)) = c.
Proof.
  intros Hl (HL & Hp & Hc) (s & Hin & Cs). pose proof (held_wf l Hl) as (Hn & HS & _).
  assert (Ew : which_segment l x = Z.of_nat s) by (apply Prop_Layers.C05_segment_contains_input; auto).
  rewrite Ew, Nat2Z.id, Hp. cbn [apply_periodicity]. destruct Cs as [(k & C & Hk & -> & HC & ->)|(N & ->)].
  - rewrite (interp_ext _ _ _ (fun j => if Nat.eqb j k then 1 else 0)).
    + rewrite (interpolates_interp (pw_n l) _ C) by auto. f_equal.
      assert (Es : seg l x = s) by (apply seg_spec; auto; apply Hin). rewrite <- Es. apply x_local_seg; auto.
    + intros j Hj. unfold delta_at. destruct (Nat.eqb_spec j k) as [->|Ne]; [now rewrite Nat.eqb_refl|].
      destruct (Nat.eqb_spec (weight_pos (pw_cls l) (pw_n l) s j) (weight_pos (pw_cls l) (pw_n l) s k)) as [Ei|]; [|reflexivity].
      exfalso. apply Ne. eapply weight_pos_inj; [exact Hj|exact Hk|exact Ei].
  - rewrite (interp_ext _ _ _ (fun _ => 0)); [apply interp_const; auto; lra|]. intros k Hk. unfold delta_at.
    destruct (Nat.eqb_spec (weight_pos (pw_cls l) (pw_n l) s k) p) as [Ei|]; [|reflexivity]. exfalso. apply (N k Hk). auto.
Qed.

(** The derivative of any differentiable loss in any weight is the error at the output of its layer times the share of the weight, summed over the batch. *)
Theorem C115_backprop : forall g t n d m K H si sh so h0 net h1 h x B F y delta J e j k l z o i p c,
  wf_heap h0 -> layer_type t -> (1 <= n)%nat -> (1 <= d)%nat -> (1 <= m)%nat -> (1 <= H)%nat -> (1 <= si)%nat -> (1 <= sh)%nat -> (1 <= so)%nat ->
  HighOrderMLP g (layers_only t n d m K H si sh so) h0 = Ok (net, h1) -> retrained h1 h -> shape x = [B; d] ->
  call h net x = Ok y -> has_gradient B m F (fun b q => at_ y [b; q]) delta ->
  (forall b q, (b < B)%nat -> (q < m)%nat -> e (K + 2)%nat b q = delta b q) -> errors h net x B (S j) J e ->
  network_layer h net j k l -> layer_input h net j x = Ok z -> (o < pw_out l)%nat -> (i < pw_in l)%nat ->
  (forall b, (b < B)%nat -> is_share l p (at_ z [b; i]) (c b)) ->
  derivable_pt_lim (fun w => loss_after F (call (set_weight h k l [o; i; p] w) net x)) (at_ (pw_w l) [o; i; p]) (rsum B (fun b => e (S j) b o * c b)).
Proof.
  intros g t n d m K H si sh so h0 net h1 h x B F y delta J e j k l z o i p c Wf Ht Hn Hd Hm HH Hsi Hsh Hso E Rh Hx Ey GF Ed Er NL Ez Ho Hi Sh.
  destruct (state g t n d m K H si sh so h0 net h1 Wf Ht Hn Hd Hm HH Hsi Hsh Hso E h Rh) as (ls & Fa & Hh & Pl & Cf & Ln & Ch & NLs & Rc & LI).
  pose proof NL as NL0. apply NLs in NL0. destruct NL0 as (Ek & El). pose proof NL as (_ & Gk).
  destruct (chain_split _ _ _ _ _ Ch El) as (C1 & Hl & C2).
  assert (Pll : plain_link l) by (rewrite Forall_forall in Pl; apply Pl; eapply nth_error_In; exact El).
  assert (Plt : Forall plain_link (skipn (S j) ls)).
  { rewrite (split_nth _ _ _ El) in Pl. apply Forall_app in Pl. destruct Pl as (_ & Pl). now apply Forall_inv_tail in Pl. }
  destruct (LI j l x B El Hx) as (z' & Ez' & Sz & Hz). rewrite Ez in Ez'. injection Ez' as <-.
  set (w0 := at_ (pw_w l) [o; i; p]). set (act := fun b => through (firstn j ls) (row x b)).
  set (D := fun b q => if Nat.eqb q o then c b else 0).
  set (v := fun b (w : R) q => layer_out l (act b) q + (w - w0) * D b q).
  assert (Vw : forall b w q, (b < B)%nat -> (q < pw_out l)%nat -> layer_out (with_w l (upd (pw_w l) [o; i; p] w)) (act b) q = v b w q).
  { intros b w q Hb Hq. unfold v, w0, D. rewrite weight_affine by (auto; apply Pll). f_equal. f_equal.
    rewrite (share_eq l p (act b i) (c b)); auto. unfold act. rewrite <- Hz by auto. now apply Sh. }
  assert (Cw : forall w, exists yw, call (set_weight h k l [o; i; p] w) net x = Ok yw /\ forall b q, (b < B)%nat -> (q < m)%nat -> at_ yw [b; q] = through (skipn (S j) ls) (v b w) q).
  { intros w. assert (Rw : retrained h1 (set_weight h k l [o; i; p] w)) by (apply (NetCopy.retrained_trans h1 h); [exact Rh|]; now apply set_retrained).
    destruct (state g t n d m K H si sh so h0 net h1 Wf Ht Hn Hd Hm HH Hsi Hsh Hso E _ Rw) as (ls' & Fa' & _ & _ & _ & _ & _ & _ & R' & _).
    pose proof (replaced g t n d m K H si sh so h0 net h1 Wf Ht Hn Hd Hm HH Hsi Hsh Hso E h ls j k l _ ls' Rh Fa Ek El Fa') as El'.
    destruct (R' x B Hx) as (yw & Eyw & _ & Hyw). exists yw. split; [exact Eyw|]. intros b q Hb Hq. rewrite Hyw, El', through_app by auto. cbn [through].
    apply (through_local _ _ _ C2); auto. intros a Ha. now apply Vw. }
  assert (V0 : forall b, v b w0 = layer_out l (act b)) by (intros b; apply functional_extensionality; intros q; unfold v; ring).
  assert (Fs : forall b, layer_out l (act b) = through (firstn (S j) ls) (row x b)).
  { intros b. replace (S j) with (j + 1)%nat by lia. rewrite <- through_skip. fold (act b).
    assert (K1 : skipn j ls = l :: skipn (S j) ls) by (clear - El; revert j El; induction ls as [|a ls IH]; intros [|j] El; cbn [nth_error] in El; try discriminate; [injection El as ->; reflexivity|cbn [skipn] in *; now apply IH]).
    rewrite K1. reflexivity. }
  assert (Bw : forall b, (b < B)%nat -> backward (skipn (S j) ls) (v b w0) (e (K + 2)%nat b) (e (S j) b)).
  { intros b Hb. rewrite V0, Fs. pose proof (backward_nth (skipn (S j) ls) (through (firstn (S j) ls) (row x b)) (fun a => e (S j + a)%nat b) (fun a => J (S j + a)%nat b)) as Q.
    cbn beta in Q. rewrite skipn_length, Ln in Q. replace (S j + (K + 2 - S j))%nat with (K + 2)%nat in Q.
    2:{ assert (X : (j < length ls)%nat) by (apply nth_error_Some; congruence). lia. }
    rewrite Nat.add_0_r in Q. apply Q. intros a la Ea i' Hi'.
    assert (Ea' : nth_error ls (S j + a) = Some la).
    { rewrite <- Ea. generalize (S j). clear. intros s. revert s. induction ls as [|b ls IH]; intros [|s]; cbn [skipn Nat.add nth_error]; auto; destruct a; reflexivity. }
    destruct (nth_error (network_layers h1 net) (S j + a)) as [ka|] eqn:Eka.
    2:{ exfalso. apply nth_error_None in Eka. assert (X : (S j + a < length ls)%nat) by (apply nth_error_Some; congruence). rewrite (Forall2_len _ _ _ Fa) in Eka. lia. }
    destruct (LI (S j + a)%nat la x B Ea' Hx) as (za & Eza & _ & Hza).
    destruct (Er (S j + a)%nat ka la za ltac:(lia) ltac:(apply NLs; split; assumption) Eza b i' Hb Hi') as (Q1 & Q2). split.
    - intros o' Ho'. rewrite through_skip, <- Hza by auto. now apply Q1.
    - rewrite Q2. replace (S j + S a)%nat with (S (S j + a)) by lia. reflexivity. }
  destruct (finite_choice B (fun b dy => (forall q, (q < m)%nat -> derivable_pt_lim (fun w => through (skipn (S j) ls) (v b w) q) w0 (dy q)) /\
     rsum m (fun q => e (K + 2)%nat b q * dy q) = rsum (pw_out l) (fun q => e (S j) b q * D b q)) (fun _ => 0)) as (dy & Hdy).
  { intros b Hb. apply (backward_lim _ _ _ C2 Plt (v b) (D b) w0 (e (K + 2)%nat b) (e (S j) b)); [|now apply Bw].
    intros q Hq. unfold v. apply (derivable_affine (D b q) (layer_out l (act b) q - w0 * D b q)). intros w. ring. }
  set (cu := fun w b q => match call (set_weight h k l [o; i; p] w) net x with Ok yw => at_ yw [b; q] | Err _ => 0 end).
  apply (lim_ext _ (fun w => F (cu w))).
  { intros w. unfold cu. destruct (Cw w) as (yw & -> & _). reflexivity. }
  assert (Cv : forall w b q, (b < B)%nat -> (q < m)%nat -> cu w b q = through (skipn (S j) ls) (v b w) q).
  { intros w b q Hb Hq. unfold cu. destruct (Cw w) as (yw & -> & Hyw). now apply Hyw. }
  replace (rsum B (fun b => e (S j) b o * c b)) with (rsum B (fun b => rsum m (fun q => delta b q * dy b q))).
  - apply (GF cu dy w0).
    + intros b q Hb Hq. rewrite Cv, V0 by auto. destruct (Rc x B Hx) as (y' & Ey' & _ & Hy). rewrite Ey in Ey'. injection Ey' as <-. rewrite Hy by auto.
      rewrite (split_nth _ _ _ El) at 2. rewrite through_app. reflexivity.
    + intros b q Hb Hq. apply (lim_ext _ (fun w => through (skipn (S j) ls) (v b w) q)); [intros w; now apply Cv|]. now apply Hdy.
  - apply rsum_ext. intros b Hb. transitivity (rsum m (fun q => e (K + 2)%nat b q * dy b q)); [apply rsum_ext; intros q Hq; now rewrite Ed|].
    destruct (Hdy b Hb) as (_ & ->). unfold D. rewrite (rsum_single (pw_out l) o); auto.
    + now rewrite Nat.eqb_refl.
    + intros q _ Nq. destruct (Nat.eqb_spec q o); [contradiction|ring].
Qed.
Print Assumptions C115_backprop.

(** The derivative in an entry of the batch is the error at the input of the first layer. *)
Theorem C115_backprop_input : forall g t n d m K H si sh so h0 net h1 h x B F y delta J e b0 i0,
  wf_heap h0 -> layer_type t -> (1 <= n)%nat -> (1 <= d)%nat -> (1 <= m)%nat -> (1 <= H)%nat -> (1 <= si)%nat -> (1 <= sh)%nat -> (1 <= so)%nat ->
  HighOrderMLP g (layers_only t n d m K H si sh so) h0 = Ok (net, h1) -> retrained h1 h -> shape x = [B; d] ->
  call h net x = Ok y -> has_gradient B m F (fun b q => at_ y [b; q]) delta ->
  (forall b q, (b < B)%nat -> (q < m)%nat -> e (K + 2)%nat b q = delta b q) -> errors h net x B 0 J e ->
  (b0 < B)%nat -> (i0 < d)%nat ->
  derivable_pt_lim (fun w => loss_after F (call h net (upd x [b0; i0] w))) (at_ x [b0; i0]) (e 0%nat b0 i0).
Proof.
  intros g t n d m K H si sh so h0 net h1 h x B F y delta J e b0 i0 Wf Ht Hn Hd Hm HH Hsi Hsh Hso E Rh Hx Ey GF Ed Er Hb0 Hi0.
  destruct (state g t n d m K H si sh so h0 net h1 Wf Ht Hn Hd Hm HH Hsi Hsh Hso E h Rh) as (ls & Fa & Hh & Pl & Cf & Ln & Ch & NLs & Rc & LI).
  set (w0 := at_ x [b0; i0]). set (D := fun b i => if Nat.eqb b b0 then if Nat.eqb i i0 then 1 else 0 else 0).
  set (v := fun b (w : R) i => row x b i + (w - w0) * D b i).
  assert (Rv : forall b w i, row (upd x [b0; i0] w) b i = v b w i).
  { intros b w i. unfold v, row, D, w0. destruct (Nat.eqb_spec b b0) as [->|Nb]; [destruct (Nat.eqb_spec i i0) as [->|Ni]|].
    - rewrite upd_same. ring.
    - rewrite upd_other by congruence. ring.
    - rewrite upd_other by congruence. ring. }
  assert (Cw : forall w, exists yw, call h net (upd x [b0; i0] w) = Ok yw /\ forall b q, (b < B)%nat -> (q < m)%nat -> at_ yw [b; q] = through ls (v b w) q).
  { intros w. destruct (Rc (upd x [b0; i0] w) B Hx) as (yw & Eyw & _ & Hyw). exists yw. split; [exact Eyw|]. intros b q Hb Hq. rewrite Hyw by auto.
    apply (through_local _ _ _ Ch); auto. }
  assert (V0 : forall b, v b w0 = row x b) by (intros b; apply functional_extensionality; intros q; unfold v; ring).
  assert (Bw : forall b, (b < B)%nat -> backward ls (v b w0) (e (K + 2)%nat b) (e 0%nat b)).
  { intros b Hb. rewrite V0, <- Ln. apply (backward_nth ls (row x b) (fun a => e a b) (fun a => J a b)). intros a la Ea i' Hi'.
    destruct (nth_error (network_layers h1 net) a) as [ka|] eqn:Eka.
    2:{ exfalso. apply nth_error_None in Eka. assert (X : (a < length ls)%nat) by (apply nth_error_Some; congruence). rewrite (Forall2_len _ _ _ Fa) in Eka. lia. }
    destruct (LI a la x B Ea Hx) as (za & Eza & _ & Hza).
    destruct (Er a ka la za ltac:(lia) ltac:(apply NLs; split; assumption) Eza b i' Hb Hi') as (Q1 & Q2). split.
    - intros o' Ho'. rewrite <- Hza by auto. now apply Q1.
    - exact Q2. }
  destruct (finite_choice B (fun b dy => (forall q, (q < m)%nat -> derivable_pt_lim (fun w => through ls (v b w) q) w0 (dy q)) /\
     rsum m (fun q => e (K + 2)%nat b q * dy q) = rsum d (fun q => e 0%nat b q * D b q)) (fun _ => 0)) as (dy & Hdy).
  { intros b Hb. apply (backward_lim _ _ _ Ch Pl (v b) (D b) w0 (e (K + 2)%nat b) (e 0%nat b)); [|now apply Bw].
    intros q Hq. unfold v. apply (derivable_affine (D b q) (row x b q - w0 * D b q)). intros w. ring. }
  set (cu := fun w b q => match call h net (upd x [b0; i0] w) with Ok yw => at_ yw [b; q] | Err _ => 0 end).
  apply (lim_ext _ (fun w => F (cu w))).
  { intros w. unfold cu. destruct (Cw w) as (yw & -> & _). reflexivity. }
  assert (Cv : forall w b q, (b < B)%nat -> (q < m)%nat -> cu w b q = through ls (v b w) q).
  { intros w b q Hb Hq. unfold cu. destruct (Cw w) as (yw & -> & Hyw). now apply Hyw. }
  replace (e 0%nat b0 i0) with (rsum B (fun b => rsum m (fun q => delta b q * dy b q))).
  - apply (GF cu dy w0).
    + intros b q Hb Hq. rewrite Cv, V0 by auto. destruct (Rc x B Hx) as (y' & Ey' & _ & Hy). rewrite Ey in Ey'. injection Ey' as <-. now rewrite Hy by auto.
    + intros b q Hb Hq. apply (lim_ext _ (fun w => through ls (v b w) q)); [intros w; now apply Cv|]. now apply Hdy.
  - rewrite (rsum_ext B _ (fun b => rsum d (fun q => e 0%nat b q * D b q))).
    + rewrite (rsum_single B b0); auto.
      * rewrite (rsum_single d i0); auto; unfold D; [rewrite !Nat.eqb_refl; ring|]. intros i _ Ni. destruct (Nat.eqb_spec i i0); [contradiction|]. destruct (Nat.eqb b0 b0); ring.
      * intros b _ Nb. apply rsum_zero. intros q _. unfold D. destruct (Nat.eqb_spec b b0); [contradiction|ring].
    + intros b Hb. transitivity (rsum m (fun q => e (K + 2)%nat b q * dy b q)); [apply rsum_ext; intros q Hq; now rewrite Ed|]. apply Hdy, Hb.
Qed.
Print Assumptions C115_backprop_input.

(** The mean squared error is such a loss. *)
Theorem C115_mean_squares : forall B m y target, has_gradient B m
  (fun y => / INR (B * m) * rsum B (fun b => rsum m (fun o => (y b o - target b o) ^ 2))) y (fun b o => 2 / INR (B * m) * (y b o - target b o)).
Proof.
  intros B m y target c dc t0 Ec Dc.
  replace (rsum B (fun b => rsum m (fun o => 2 / INR (B * m) * (y b o - target b o) * dc b o)))
    with (/ INR (B * m) * rsum B (fun b => rsum m (fun o => 2 * (y b o - target b o) * dc b o))).
  - apply (derivable_pt_lim_scal (fun t => rsum B (fun b => rsum m (fun o => (c t b o - target b o) ^ 2)))).
    apply (rsum_lim B (fun t b => rsum m (fun o => (c t b o - target b o) ^ 2)) (fun b => rsum m (fun o => 2 * (y b o - target b o) * dc b o))). intros b Hb.
    apply (rsum_lim m (fun t o => (c t b o - target b o) ^ 2) (fun o => 2 * (y b o - target b o) * dc b o)). intros o Ho.
    apply (derivable_pt_lim_comp (fun t => c t b o - target b o) (fun s => s ^ 2)).
    + replace (dc b o) with (dc b o - 0) by ring. apply (derivable_pt_lim_minus (fun t => c t b o) (fun _ => target b o)); [now apply Dc|apply derivable_pt_lim_const].
    + rewrite <- (Ec b o Hb Ho). replace (2 * (c t0 b o - target b o)) with (INR 2 * (c t0 b o - target b o) ^ pred 2) by (cbn; ring). apply derivable_pt_lim_pow.
  - rewrite <- rsum_scal. apply rsum_ext. intros b _. rewrite <- rsum_scal. apply rsum_ext. intros o _. unfold Rdiv. ring.
Qed.
Print Assumptions C115_mean_squares.

(** ** The errors exist whenever no input of a layer is at a knot, and the shares always *)
Theorem C115_errors_exist : forall g t n d m K H si sh so h0 net h1 h x B j0 delta,
  wf_heap h0 -> layer_type t -> (1 <= n)%nat -> (1 <= d)%nat -> (1 <= m)%nat -> (1 <= H)%nat -> (1 <= si)%nat -> (1 <= sh)%nat -> (1 <= so)%nat ->
  HighOrderMLP g (layers_only t n d m K H si sh so) h0 = Ok (net, h1) -> retrained h1 h -> shape x = [B; d] ->
  (forall j k l z, (j0 <= j)%nat -> network_layer h net j k l -> layer_input h net j x = Ok z -> forall b i, (b < B)%nat -> (i < pw_in l)%nat ->
     exists s, inside (pw_segments l) s (at_ z [b; i])) ->
  exists J e, (forall b q, e (K + 2)%nat b q = delta b q) /\ errors h net x B j0 J e.
Proof.
  intros g t n d m K H si sh so h0 net h1 h x B j0 delta Wf Ht Hn Hd Hm HH Hsi Hsh Hso E Rh Hx In.
  destruct (state g t n d m K H si sh so h0 net h1 Wf Ht Hn Hd Hm HH Hsi Hsh Hso E h Rh) as (ls & Fa & Hh & Pl & Cf & Ln & Ch & NLs & Rc & LI).
  assert (LL : length (network_layers h1 net) = (K + 2)%nat) by (rewrite (Forall2_len _ _ _ Fa); exact Ln).
  destruct (finite_choice (K + 2) (fun j (f : nat -> nat -> nat -> R) => (j0 <= j)%nat -> forall k l z, network_layer h net j k l -> layer_input h net j x = Ok z ->
     forall b i o, (b < B)%nat -> (i < pw_in l)%nat -> (o < pw_out l)%nat -> is_slope l o i (at_ z [b; i]) (f b o i)) (fun _ _ _ => 0)) as (J & HJ).
  { intros j Hj. destruct (le_lt_dec j0 j) as [Lj|Lj]; [|exists (fun _ _ _ => 0); intros; lia].
    destruct (nth_error ls j) as [l|] eqn:El; [|apply nth_error_None in El; lia]. destruct (nth_error (network_layers h1 net) j) as [k|] eqn:Ek; [|apply nth_error_None in Ek; lia].
    destruct (LI j l x B El Hx) as (z & Ez & _ & _). assert (NL : network_layer h net j k l) by (apply NLs; auto). destruct (chain_split _ _ _ _ _ Ch El) as (_ & Hl & _).
    destruct (finite_choice B (fun b (f : nat -> nat -> R) => forall i o, (i < pw_in l)%nat -> (o < pw_out l)%nat -> is_slope l o i (at_ z [b; i]) (f o i)) (fun _ _ => 0)) as (f & Hf).
    - intros b Hb. destruct (finite_choice (pw_out l) (fun o (f : nat -> R) => forall i, (i < pw_in l)%nat -> is_slope l o i (at_ z [b; i]) (f i)) (fun _ => 0)) as (f & Hf).
      + intros o Ho. apply (finite_choice (pw_in l) (fun i v => is_slope l o i (at_ z [b; i]) v) 0). intros i Hi.
        destruct (In j k l z Lj NL Ez b i Hb Hi) as (s & Hs). set (w := fun q => at_ (pw_w l) [o; i; weight_pos (pw_cls l) (pw_n l) s q]).
        destruct (poly_derivable (pw_n l) _ (seg_local (pw_segments l) s (at_ z [b; i])) (interp_poly (pw_n l) 2 w)) as (D & HD).
        exists (INR (pw_segments l) * D), s, (interp (pw_n l) 2 w), D. split; [exact Hs|]. split; [|split; [exact HD|reflexivity]].
        apply interp_interpolates; auto. apply (held_wf l Hl).
      + exists f. intros i o Hi Ho. now apply Hf.
    - exists f. intros _ k2 l2 z2 NL2 Ez2 b i o Hb Hi Ho. assert (z2 = z) by congruence. subst z2.
      assert (l2 = l) by (apply NLs in NL2; destruct NL2; congruence). subst l2. now apply Hf. }
  set (ee := fix ee (r : nat) : nat -> nat -> R := match r with O => delta | S r => fun b i =>
     match nth_error ls (K + 2 - S r) with Some l => rsum (pw_out l) (fun o => J (K + 2 - S r)%nat b o i * ee r b o) | None => 0 end end).
  exists J, (fun j => ee (K + 2 - j)%nat). split; [intros b q; rewrite Nat.sub_diag; reflexivity|].
  intros j k l z Lj NL Ez b i Hb Hi. pose proof NL as NL'. apply NLs in NL'. destruct NL' as (_ & El).
  assert (Hj : (j < K + 2)%nat) by (rewrite <- Ln; apply nth_error_Some; congruence). split.
  - intros o Ho. now apply (HJ j Hj Lj k l z).
  - replace (K + 2 - j)%nat with (S (K + 2 - S j)) by lia. cbn [ee]. replace (K + 2 - S (K + 2 - S j))%nat with j by lia. rewrite El. reflexivity.
Qed.
Print Assumptions C115_errors_exist.

Theorem C115_shares_exist : forall l p x, held l -> plain_link l -> exists c, is_share l p x c.
Proof.
  intros l p x Hl (HL & Hp & _). pose proof (held_wf l Hl) as (Hn & HS & _). set (s := seg l x).
  assert (Hin : in_segment (pw_segments l) s x) by (apply seg_in; auto).
  destruct (in_dec Nat.eq_dec p (map (weight_pos (pw_cls l) (pw_n l) s) (seq 0 (pw_n l)))) as [Hi|Ni].
  - apply in_map_iff in Hi. destruct Hi as (k & Ek & Hk). apply in_seq in Hk.
    exists (interp (pw_n l) 2 (fun j => if Nat.eqb j k then 1 else 0) (seg_local (pw_segments l) s x)), s. split; [exact Hin|]. left.
    exists k, (interp (pw_n l) 2 (fun j => if Nat.eqb j k then 1 else 0)). split; [lia|]. split; [auto|]. split; [apply interp_interpolates; auto|reflexivity].
  - exists 0, s. split; [exact Hin|]. right. split; [|reflexivity]. intros k Hk Ek. apply Ni. rewrite Ek. apply in_map, in_seq. lia.
Qed.
Print Assumptions C115_shares_exist.

(** A network with one segment per layer has its gradient everywhere. *)
Example C115_case : exists net h1, HighOrderMLP (fun _ _ => 1/2) (layers_only "continuous" 3 2 1 1 2 1 1 1) [] = Ok (net, h1) /\
  forall h x B target, retrained h1 h -> shape x = [B; 2%nat] -> exists y J e, call h net x = Ok y /\ errors h net x B 0 J e /\
    (forall b q, e 3%nat b q = 2 / INR (B * 1) * (at_ y [b; q] - target b q)) /\
    forall b i, (b < B)%nat -> (i < 2)%nat ->
      derivable_pt_lim (fun w => loss_after (fun y => / INR (B * 1) * rsum B (fun b => rsum 1 (fun o => (y b o - target b o) ^ 2))) (call h net (upd x [b; i] w))) (at_ x [b; i]) (e 0%nat b i).
Proof.
  assert (Pl : plain_mlp (layers_only "continuous" 3 2 1 1 2 1 1 1) 3 3 3 1 1 1) by (apply layers_only_plain; try lia; now left).
  destruct (mlp_spec (fun _ _ => 1/2) _ 3 3 3 1 1 1 [] 0%nat Pl wf_nil ltac:(intros k Ek; discriminate)) as (net & e0 & dl & k1 & k2 & q & L & E & _).
  exists net, ([] ++ e0). split; [exact E|]. intros h x B target Rh Hx.
  destruct (state (fun _ _ => 1/2) "continuous" 3 2 1 1 2 1 1 1 [] net ([] ++ e0) wf_nil ltac:(now left) ltac:(lia) ltac:(lia) ltac:(lia) ltac:(lia) ltac:(lia) ltac:(lia) ltac:(lia) E h Rh)
    as (ls & Fa & Hh & Pll & Cf & Ln & Ch & NLs & Rc & LI).
  destruct (Rc x B Hx) as (y & Ey & _).
  destruct (C115_errors_exist (fun _ _ => 1/2) "continuous" 3 2 1 1 2 1 1 1 [] net ([] ++ e0) h x B 0 (fun b q => 2 / INR (B * 1) * (at_ y [b; q] - target b q))
    wf_nil ltac:(now left) ltac:(lia) ltac:(lia) ltac:(lia) ltac:(lia) ltac:(lia) ltac:(lia) ltac:(lia) E Rh Hx) as (J & e & He & Er).
  { intros j k l z _ NL _ b i _ _. exists 0%nat. apply NLs in NL. destruct NL as (_ & El). assert (S1 : pw_segments l = 1%nat).
    { pose proof (map_nth_error cfg_of j ls El) as X. rewrite Cf in X. cbv [mlp_configs repeat app] in X.
      destruct j as [|[|[|j]]]; cbn [nth_error] in X; try (unfold cfg_of, pw_slot in X; congruence). destruct j; discriminate. }
    rewrite S1. split; [lia|]. split; now left. }
  exists y, J, e. split; [exact Ey|]. split; [exact Er|]. split; [exact He|]. intros b i Hb Hi.
  apply (C115_backprop_input (fun _ _ => 1/2) "continuous" 3 2 1 1 2 1 1 1 [] net ([] ++ e0) h x B _ y (fun b q => 2 / INR (B * 1) * (at_ y [b; q] - target b q)) J e b i); auto; try lia;
    [apply wf_nil|now left|apply (C115_mean_squares B 1 (fun b q => at_ y [b; q]) target)].
Qed.
