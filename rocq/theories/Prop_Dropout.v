(** * C108: HighOrderMLP with dropout, in training. *)
From Coq Require Import String Reals ZArith List Lia Lra Psatz Bool Arith.
From Verif Require Import Spec Tensor Utils LagrangePolynomial Basis PolynomialLayers ProductLayer LagrangeND Layers Networks Dropout Observe ObserveNet
  SumFacts TensorFacts LagrangeFacts LayerFacts SegmentFacts LayerProofs LebesgueFacts HeapFacts NetFacts Prop_Init Prop_Bounds Prop_Approx Prop_Universal Prop_Lipschitz Prop_Stages.
Import ListNotations.
Local Open Scope R_scope.

(** ** What dropout does to one sample *)
Definition drop (p : R) (keep : nat -> bool) (v : nat -> R) : nat -> R := fun i => if keep i then v i / (1 - p) else 0.
(** Layers in sequence, each preceded by a dropout. *)
Fixpoint dropped_through (p : R) (keep : nat -> nat -> bool) (ls : list piecewise) (v : nat -> R) : nat -> R :=
  match ls with [] => v | l :: ls => dropped_through p (fun j => keep (S j)) ls (layer_out l (drop p (keep O) v)) end.

(** The arguments of a HighOrderMLP made of discontinuous or continuous layers and dropout only. *)
Definition with_dropout (t : string) (n d m layers width si sh so : nat) (p : R) : mlp_args :=
  mkMLP t (Int n) d m layers width 2 None None None false None None (Some (Int si)) (Some (Int so)) (Some (Int sh)) None false None "constant_random"%string p.

Lemma with_dropout_plain t n d m K H si sh so p : refinable_type t -> (1 <= n)%nat -> (1 <= d)%nat -> (1 <= m)%nat -> (1 <= H)%nat ->
  (1 <= si)%nat -> (1 <= sh)%nat -> (1 <= so)%nat -> 0 <= p <= 1 -> plain_mlp (with_dropout t n d m K H si sh so p) n n n si sh so.
Proof. intros. constructor; cbn; auto; try lra; repeat split; auto. Qed.

Definition after_drops (cs : list cfg) : list slot := flat_map (fun c => [SDrop; SP c]) cs.

Lemma dropout_slots t c n d m K H si sh so p :
  (t = "continuous"%string /\ c = PiecewisePolynomial \/ t = "discontinuous"%string /\ c = PiecewiseDiscontinuousPolynomial) -> 0 < p ->
  mlp_slots (with_dropout t n d m K H si sh so p) n n n si sh so
  = SP (pw_slot c n d H si None) :: after_drops (repeat (pw_slot c n H H sh None) K ++ [pw_slot c n H m so None]).
Proof.
  intros Ht Hp. set (a := with_dropout t n d m K H si sh so p).
  assert (Ly : forall n I O s per, layer_slot t n I O s per = SP (pw_slot c n I O s per)).
  { intros. destruct Ht as [(-> & ->)|(-> & ->)]; reflexivity. }
  assert (Dr : drop_slots a = [SDrop]) by (unfold drop_slots; cbn; destruct Rlt_dec; [reflexivity|lra]).
  unfold mlp_slots, hidden_slots, after_drops. rewrite Dr.
  cbn [a with_dropout ma_layer_type ma_layer_type_in or_string ma_normalization ma_non_linearity between_slots app ma_in_width ma_hidden_width ma_out_width ma_periodicity ma_hidden_layers].
  rewrite !Ly. f_equal. rewrite flat_map_app. cbn [flat_map app]. f_equal. clear. induction K as [|K IH]; [reflexivity|]. cbn [repeat concat flat_map app]. now rewrite IH.
Qed.

Lemma drop_train_rows p keep x b i : p < 1 -> at_ (dropout_train p keep x) [b; i] = drop p (fun i => keep [b; i]) (row x b) i.
Proof.
  intros Hp. unfold dropout_train, drop, row, dropout_scale. cbn [at_]. destruct Req_EM_T; [lra|]. destruct (keep [b; i]); unfold Rdiv; ring.
Qed.

Lemma dropped_local p W ls W' : chain W ls W' -> forall keep v v' o, (o < W')%nat -> (forall i, (i < W)%nat -> v i = v' i) -> dropped_through p keep ls v o = dropped_through p keep ls v' o.
Proof.
  induction 1 as [W|l ls W' H C IH]; intros keep v v' o Ho E; cbn [dropped_through]; auto.
  apply IH; auto. intros i Hi. apply layer_out_local; auto. intros j Hj. unfold drop. now rewrite E.
Qed.

Lemma train_through h dl p ls W W' : wf_heap h -> (exists f ps, get h dl = OModule f ps) -> chain W ls W' ->
  forall ks, Forall2 (fun k l => get h k = OPiecewise l) ks ls -> forall keep keep' x B, shape x = [B; W] ->
  (forall j x b i, at_ (dropout_train p (keep j) x) [b; i] = drop p (keep' b j) (row x b) i) ->
  exists y, train_run h dl p keep (flat_map (fun k => [dl; k]) ks) x = Ok y /\ shape y = [B; W'] /\
    forall b o, (b < B)%nat -> (o < W')%nat -> at_ y [b; o] = dropped_through p (keep' b) ls (row x b) o.
Proof.
  intros Wf (f & ps & Gd) C. induction C as [W|l ls W' Hl C IH]; intros ks F keep keep' x B Hx Hd; inversion F as [|k ? ks' ? Gk F']; subst; cbn [flat_map app train_run].
  - exists x. auto.
  - rewrite Nat.eqb_refl. destruct (Nat.eqb_spec k dl) as [->|Nk]; [rewrite Gd in Gk; discriminate|].
    destruct (forward_rows l (dropout_train p (keep O) x) B Hl Hx) as (y & E & Hs & Hy).
    rewrite Gk, call_unfold, Gk by (auto; now apply (get_pw_lt _ _ _ Gk)). cbn [obj_forward]. rewrite E. cbn [rbind].
    destruct (IH ks' F' (fun j => keep (S j)) (fun b j => keep' b (S j)) y B Hs ltac:(intros; apply Hd)) as (z & Ez & Sz & Hz). exists z. split; auto. split; auto. intros b o Hb Ho. rewrite Hz by auto. cbn [dropped_through].
    apply (dropped_local _ _ _ _ C); auto. intros i Hi. unfold row at 1. rewrite Hy by auto. apply layer_out_local; auto. intros j Hj. unfold row at 1. apply Hd.
Qed.

Lemma dropout_view g t c n d m K H si sh so p h0 net h1 h : wf_heap h0 ->
  (t = "continuous"%string /\ c = PiecewisePolynomial \/ t = "discontinuous"%string /\ c = PiecewiseDiscontinuousPolynomial) ->
  (1 <= n)%nat -> (1 <= d)%nat -> (1 <= m)%nat -> (1 <= H)%nat -> (1 <= si)%nat -> (1 <= sh)%nat -> (1 <= so)%nat -> 0 < p <= 1 ->
  HighOrderMLP g (with_dropout t n d m K H si sh so p) h0 = Ok (net, h1) -> retrained h1 h ->
  wf_heap h /\ exists dl k1 k2 q l ls k ks, get h net = OMLP dl k1 k2 q /\ get h q = OSequential (k :: flat_map (fun k => [dl; k]) ks) /\
    network_layers h net = k :: ks /\
    get h dl = OModule (fun x => Ok x) [] /\ (dl < length h)%nat /\ (net < length h)%nat /\ (q < length h)%nat /\ get h k = OPiecewise l /\ Forall2 (fun k l => get h k = OPiecewise l) ks ls /\ Forall held (l :: ls) /\
    map cfg_of (l :: ls) = mlp_configs c n d m K H si sh so /\ chain d (l :: ls) m.
Proof.
  intros Wf Ht Hn Hd Hm HH Hsi Hsh Hso Hp E Rh. set (a := with_dropout t n d m K H si sh so p) in *.
  assert (P : plain_mlp a n n n si sh so) by (apply with_dropout_plain; auto; try lra; unfold refinable_type; tauto).
  destruct (mlp_view g a h0 h1 h net n n n si sh so Wf P ltac:(intros k Ek; discriminate) E Rh) as (nl & dl & k1 & k2 & q & L & Wh & Ln & G & Lq & Q & B & Ld & Gd & _).
  split; auto. pose proof (b_desc _ _ _ _ _ _ B) as D. unfold a in D. rewrite (dropout_slots t c) in D by (auto; lra).
  destruct L as [|k L]; [inversion D|]. assert (D0 : describes nl dl h k (SP (pw_slot c n d H si None))) by now inversion D.
  assert (D' : Forall2 (describes nl dl h) L (after_drops (repeat (pw_slot c n H H sh None) K ++ [pw_slot c n H m so None]))) by now inversion D.
  destruct D0 as (_ & l & El & Hl & Cl).
  assert (F : exists ks ls, L = flat_map (fun k => [dl; k]) ks /\ Forall2 (fun k l => get h k = OPiecewise l) ks ls /\ Forall held ls /\ map cfg_of ls = repeat (pw_slot c n H H sh None) K ++ [pw_slot c n H m so None]).
  { revert L D' B Q D. intros L D' _ _ _. revert D'. generalize (repeat (pw_slot c n H H sh None) K ++ [pw_slot c n H m so None]). intros cs. revert L. induction cs as [|c0 cs IH]; intros L D'; cbn [after_drops flat_map app] in D'.
    - inversion D'; subst. exists [], []. repeat split; constructor.
    - destruct L as [|k0 [|k3 L3]]; [inversion D'|now inversion D' as [|? ? ? ? _ D2]; inversion D2|].
      assert (D2 : Forall2 (describes nl dl h) (k3 :: L3) (SP c0 :: flat_map (fun c => [SDrop; SP c]) cs)) by now inversion D'.
      assert (Ek0 : describes nl dl h k0 SDrop) by now inversion D'. destruct Ek0 as (_ & Ek0 & _). subst k0.
      assert (D3 : Forall2 (describes nl dl h) L3 (after_drops cs)) by now inversion D2.
      assert (Ek3 : describes nl dl h k3 (SP c0)) by now inversion D2. destruct Ek3 as (_ & l3 & El3 & Hl3 & Cl3).
      destruct (IH L3 D3) as (ks & ls & -> & F & Hh & M). exists (k3 :: ks), (l3 :: ls). split; [reflexivity|]. split; [now constructor|]. split; [now constructor|]. cbn [map]. now rewrite M, Cl3. }
  destruct F as (ks & ls & -> & F & Hh & M).
  assert (Hls : Forall held (l :: ls)) by now constructor.
  assert (Ml : map cfg_of (l :: ls) = mlp_configs c n d m K H si sh so) by (cbn [map]; rewrite Cl, M; reflexivity).
  exists dl, k1, k2, q, l, ls, k, ks. do 2 (split; auto). split.
  { unfold network_layers, model_of. rewrite G, Q. cbn [filter]. rewrite El. cbn [is_layer]. f_equal. clear - F Gd. induction F as [|k l L ls Gk F IH]; [reflexivity|]. cbn [flat_map app filter]. rewrite Gd, Gk. cbn [is_layer]. now rewrite IH. }
  do 8 (split; auto).
  clear - Ml Hls. unfold mlp_configs in Ml. cbn [map] in Ml. injection Ml as E1 E2 E3 E4 E5 E6 E7 M. rewrite <- E3. pose proof (Forall_inv Hls) as Hl. pose proof (Forall_inv_tail Hls) as Hh. constructor; auto. rewrite E4. clear Hls Hl E1 E2 E3 E4 E5 E6 E7.
  revert ls M Hh. induction K as [|K IH]; intros ls M Hh; cbn [repeat app] in M.
  - destruct ls as [|l' ls]; [discriminate|]. cbn [map] in M. unfold cfg_of, pw_slot in M. injection M as E1 E2 E3 E4 E5 E6 E7 M. apply map_eq_nil in M. subst ls.
    rewrite <- E3, <- E4. constructor; [now apply Forall_inv in Hh|constructor].
  - destruct ls as [|l' ls]; [discriminate|]. cbn [map] in M. unfold cfg_of at 1, pw_slot at 1 in M. injection M as E1 E2 E3 E4 E5 E6 E7 M.
    rewrite <- E3 at 1. constructor; [now apply Forall_inv in Hh|]. rewrite E4. apply IH; auto. now apply Forall_inv_tail in Hh.
Qed.

(** ** C108: where dropout acts
    In training every layer but the first sees its inputs through a dropout with fresh decisions; the inputs of the network and its
    outputs are never dropped.  In evaluation nothing is dropped. *)
Theorem C108_training : forall g t c n d m K H si sh so p h0 net h1 h, wf_heap h0 ->
  (t = "continuous"%string /\ c = PiecewisePolynomial \/ t = "discontinuous"%string /\ c = PiecewiseDiscontinuousPolynomial) ->
  (1 <= n)%nat -> (1 <= d)%nat -> (1 <= m)%nat -> (1 <= H)%nat -> (1 <= si)%nat -> (1 <= sh)%nat -> (1 <= so)%nat -> 0 < p < 1 ->
  HighOrderMLP g (with_dropout t n d m K H si sh so p) h0 = Ok (net, h1) -> retrained h1 h ->
  exists l ls, Forall2 (fun k l => get h k = OPiecewise l) (network_layers h net) (l :: ls) /\ map cfg_of (l :: ls) = mlp_configs c n d m K H si sh so /\
    forall x B, shape x = [B; d] ->
      (exists y, call h net x = Ok y /\ shape y = [B; m] /\ forall b o, (b < B)%nat -> (o < m)%nat -> at_ y [b; o] = through (l :: ls) (row x b) o) /\
      forall keep, exists y, train_forward h net p keep x = Ok y /\ shape y = [B; m] /\
        forall b o, (b < B)%nat -> (o < m)%nat -> at_ y [b; o] = dropped_through p (fun j i => keep j [b; i]) ls (layer_out l (row x b)) o.
Proof.
  intros g t c n d m K H si sh so p h0 net h1 h Wf Ht Hn Hd Hm HH Hsi Hsh Hso Hp E Rh.
  destruct (dropout_view g t c n d m K H si sh so p h0 net h1 h Wf Ht Hn Hd Hm HH Hsi Hsh Hso ltac:(lra) E Rh) as (Wh & dl & k1 & k2 & q & l & ls & k & ks & G & Q & Nl & Gd & Ld & Ln & Lq & Gk & F & Hh & M & Ch).
  exists l, ls. rewrite Nl. split; [now constructor|]. split; auto. intros x B Hx. inversion Ch as [|? ? ? Hl Ch' E1 E2 E3]; subst.
  destruct (forward_rows l x B Hl Hx) as (y1 & Ey1 & S1 & V1).
  assert (C1 : call h k x = Ok y1) by (rewrite call_unfold, Gk by (auto; now apply (get_pw_lt _ _ _ Gk)); exact Ey1). split.
  - assert (R : exists y, run (call h) (flat_map (fun k => [dl; k]) ks) y1 = Ok y /\ shape y = [B; m] /\ forall b o, (b < B)%nat -> (o < m)%nat -> at_ y [b; o] = through ls (row y1 b) o).
    { destruct (run_through h ks ls (pw_out l) m Wh F Ch' y1 B S1) as (y & Ey & Sy & Hy). exists y. split; auto. rewrite <- Ey.
      assert (Id : forall x, call h dl x = Ok x) by (intros z; rewrite call_unfold, Gd by auto; reflexivity). clear - Id. revert y1. induction ks as [|k ks IH]; intros y1; [reflexivity|].
      cbn [flat_map app run]. rewrite Id. cbn [rbind]. destruct (call h k y1); cbn [rbind]; auto. }
    destruct R as (y & Ey & Sy & Hy). exists y. split; [|split; auto].
    + rewrite call_unfold, G by auto. cbn [obj_forward]. rewrite call_unfold, Q by auto. cbn [obj_forward run]. rewrite C1. exact Ey.
    + intros b o Hb Ho. rewrite Hy by auto. cbn [through]. apply (through_local _ _ _ Ch'); auto. intros i Hi. unfold row at 1. now apply V1.
  - intros keep. unfold train_forward. rewrite G, Q. cbn [train_run]. destruct (Nat.eqb_spec k dl) as [->|Nk]; [rewrite Gd in Gk; discriminate|]. rewrite Gk, C1. cbn [rbind].
    destruct (train_through h dl p ls (pw_out l) m Wh ltac:(eauto) Ch' ks F keep (fun b j i => keep j [b; i]) y1 B S1 ltac:(intros; apply drop_train_rows; lra)) as (y & Ey & Sy & Hy). exists y. do 2 (split; auto). intros b o Hb Ho. rewrite Hy by auto.
    apply (dropped_local _ _ _ _ Ch'); auto. intros i Hi. unfold row at 1. now apply V1.
Qed.
Print Assumptions C108_training.

(** With the default [dropout=0] training and evaluation agree. *)
Theorem C108_no_dropout : forall g t c n d m K H si sh so h0 net h1 h keep x B, wf_heap h0 ->
  (t = "continuous"%string /\ c = PiecewisePolynomial \/ t = "discontinuous"%string /\ c = PiecewiseDiscontinuousPolynomial) ->
  (1 <= n)%nat -> (1 <= d)%nat -> (1 <= m)%nat -> (1 <= H)%nat -> (1 <= si)%nat -> (1 <= sh)%nat -> (1 <= so)%nat ->
  HighOrderMLP g (with_dropout t n d m K H si sh so 0) h0 = Ok (net, h1) -> retrained h1 h -> shape x = [B; d] ->
  exists y, train_forward h net 0 keep x = Ok y /\ call h net x = Ok y.
Proof.
  intros g t c n d m K H si sh so h0 net h1 h keep x B Wf Ht Hn Hd Hm HH Hsi Hsh Hso E Rh Hx.
  destruct (mlp_sequence g t c n d m K H si sh so h0 net h1 Wf Ht Hn Hd Hm HH Hsi Hsh Hso E) as (L & _ & P).
  destruct (P h Rh) as (L2 & ls & Fl & _ & _ & _ & R). destruct (R x B Hx) as (y & Ey & _). exists y. split; auto. rewrite <- Ey.
  destruct (mlp_view g (layers_only t n d m K H si sh so) h0 h1 h net n n n si sh so Wf ltac:(apply layers_only_plain; auto; unfold refinable_type; tauto) ltac:(intros k Ek; discriminate) E Rh)
    as (nl & dl & k1 & k2 & q & L' & Wh & Ln & G & Lq & Q & B2 & Ld & Gd & _).
  rewrite (call_unfold h net x) by auto. unfold train_forward. rewrite G. cbn [obj_forward]. rewrite call_unfold, Q by auto. cbn [obj_forward].
  assert (N : forall k, In k L' -> k <> dl /\ exists l, get h k = OPiecewise l).
  { intros k0 Hin. pose proof (b_desc _ _ _ _ _ _ B2) as D. assert (Sl : forall s, In s (mlp_slots (layers_only t n d m K H si sh so) n n n si sh so) -> exists c, s = SP c).
    { assert (Ly : forall n I O s per, layer_slot t n I O s per = SP (pw_slot c n I O s per)) by (intros; destruct Ht as [(-> & ->)|(-> & ->)]; reflexivity).
      assert (Dr : drop_slots (layers_only t n d m K H si sh so) = []) by (unfold drop_slots; cbn; destruct Rlt_dec; [lra|reflexivity]).
      unfold mlp_slots, hidden_slots. rewrite Dr. cbn [layers_only ma_layer_type ma_layer_type_in or_string ma_normalization ma_non_linearity between_slots app ma_in_width ma_hidden_width ma_out_width ma_periodicity ma_hidden_layers].
      rewrite !Ly. intros s [<-|Hs]; [eauto|]. apply in_app_or in Hs. destruct Hs as [Hs|[<-|[]]]; [|eauto].
      clear - Hs. induction K as [|K' IH]; [easy|]. cbn [repeat concat app] in Hs. destruct Hs as [<-|Hs]; [eauto|]. auto. }
    clear - D Hin Gd Sl. induction D as [|k s L Sls (_ & Dk) D IH]; [easy|]. destruct Hin as [->|Hin].
    - destruct (Sl s ltac:(now left)) as (c0 & ->). destruct Dk as (l & El & _). split; [|eauto]. intros ->. rewrite Gd in El. discriminate.
    - apply IH; auto. intros s' Hs'. apply Sl. now right. }
  clear - N. revert x. induction L' as [|k L' IH]; intros x; [reflexivity|]. cbn [train_run run].
  destruct (N k ltac:(now left)) as (Nk & l & El). destruct (Nat.eqb_spec k dl) as [->|_]; [now destruct Nk|]. rewrite El.
  destruct (call h k x); cbn [rbind]; auto. apply IH. intros k' Hin. apply N. now right.
Qed.
Print Assumptions C108_no_dropout.

(** A sample loses all information about its input when some use of the dropout happens to drop all of its entries. *)
Lemma all_dropped p W ls W' : chain W ls W' -> forall keep v v' o j, (o < W')%nat -> (j < length ls)%nat -> (forall i, keep j i = false) ->
  dropped_through p keep ls v o = dropped_through p keep ls v' o.
Proof.
  induction 1 as [W|l ls W' H C IH]; intros keep v v' o j Ho Hj Hk; cbn [length] in Hj; [lia|]. cbn [dropped_through]. destruct j as [|j].
  - apply (dropped_local _ _ _ _ C); auto. intros i Hi. apply layer_out_local; auto. intros k' Hk'. unfold drop. now rewrite Hk.
  - apply (IH _ _ _ _ j); auto. lia.
Qed.

Theorem C108_all_dropped : forall g t c n d m K H si sh so p h0 net h1 h keep x x' B y y' b j, wf_heap h0 ->
  (t = "continuous"%string /\ c = PiecewisePolynomial \/ t = "discontinuous"%string /\ c = PiecewiseDiscontinuousPolynomial) ->
  (1 <= n)%nat -> (1 <= d)%nat -> (1 <= m)%nat -> (1 <= H)%nat -> (1 <= si)%nat -> (1 <= sh)%nat -> (1 <= so)%nat -> 0 < p < 1 ->
  HighOrderMLP g (with_dropout t n d m K H si sh so p) h0 = Ok (net, h1) -> retrained h1 h -> shape x = [B; d] -> shape x' = [B; d] ->
  train_forward h net p keep x = Ok y -> train_forward h net p keep x' = Ok y' ->
  (b < B)%nat -> (j <= K)%nat -> (forall i, keep j [b; i] = false) ->
  forall o, (o < m)%nat -> at_ y [b; o] = at_ y' [b; o].
Proof.
  intros g t c n d m K H si sh so p h0 net h1 h keep x x' B y y' b j Wf Ht Hn Hd Hm HH Hsi Hsh Hso Hp E Rh Hx Hx' Hy Hy' Hb Hj Hk o Ho.
  destruct (C108_training g t c n d m K H si sh so p h0 net h1 h Wf Ht Hn Hd Hm HH Hsi Hsh Hso Hp E Rh) as (l & ls & _ & Cf & R).
  destruct (dropout_view g t c n d m K H si sh so p h0 net h1 h Wf Ht Hn Hd Hm HH Hsi Hsh Hso ltac:(lra) E Rh) as (_ & dl & k1 & k2 & q & l0 & ls0 & k & ks & _ & _ & Nl & _ & _ & _ & _ & Gk & F & Hh & M & Ch).
  destruct (C108_training g t c n d m K H si sh so p h0 net h1 h Wf Ht Hn Hd Hm HH Hsi Hsh Hso Hp E Rh) as (l' & ls' & F' & _ & R').
  rewrite Nl in F'. assert (G : get h k = OPiecewise l') by now inversion F'. assert (l' = l0) by congruence. subst l'.
  assert (F2 : Forall2 (fun k l => get h k = OPiecewise l) ks ls') by now inversion F'.
  assert (ls' = ls0). { clear - F F2. revert ls' F2. induction F as [|k l ks ls Gk F IH]; intros ls' F2; inversion F2 as [|? l' ? ls'' Gk' F3]; subst; auto. rewrite Gk in Gk'. injection Gk' as <-. f_equal. auto. } subst ls'.
  destruct (proj2 (R' x B Hx) keep) as (z & Ez & _ & Vz). destruct (proj2 (R' x' B Hx') keep) as (z' & Ez' & _ & Vz').
  rewrite Hy in Ez. rewrite Hy' in Ez'. apply Ok_inj in Ez, Ez'. subst z z'. rewrite Vz, Vz' by auto. inversion Ch as [|? ? ? Hl Ch' E1 E2 E3]; subst.
  apply (all_dropped p _ _ _ Ch' _ _ _ _ j); auto. apply (f_equal (@length _)) in M. rewrite map_length in M. unfold mlp_configs in M. cbn [length] in M. rewrite app_length, repeat_length in M. cbn in M. lia.
Qed.
Print Assumptions C108_all_dropped.

(** [dropout=1] is accepted; in training such a network ignores its input. *)
Theorem C108_dropout_one : forall g t c n d m K H si sh so h0 net h1 h, wf_heap h0 ->
  (t = "continuous"%string /\ c = PiecewisePolynomial \/ t = "discontinuous"%string /\ c = PiecewiseDiscontinuousPolynomial) ->
  (1 <= n)%nat -> (1 <= d)%nat -> (1 <= m)%nat -> (1 <= H)%nat -> (1 <= si)%nat -> (1 <= sh)%nat -> (1 <= so)%nat ->
  HighOrderMLP g (with_dropout t n d m K H si sh so 1) h0 = Ok (net, h1) -> retrained h1 h ->
  exists answer : nat -> R, forall keep x B, shape x = [B; d] -> exists y, train_forward h net 1 keep x = Ok y /\ shape y = [B; m] /\
    forall b o, (b < B)%nat -> (o < m)%nat -> at_ y [b; o] = answer o.
Proof.
  intros g t c n d m K H si sh so h0 net h1 h Wf Ht Hn Hd Hm HH Hsi Hsh Hso E Rh.
  destruct (dropout_view g t c n d m K H si sh so 1 h0 net h1 h Wf Ht Hn Hd Hm HH Hsi Hsh Hso ltac:(lra) E Rh) as (Wh & dl & k1 & k2 & q & l & ls & k & ks & G & Q & Nl & Gd & Ld & Ln & Lq & Gk & F & Hh & M & Ch).
  exists (fun o => dropped_through 1 (fun _ _ => false) ls (fun _ => 0) o). intros keep x B Hx. inversion Ch as [|? ? ? Hl Ch' E1 E2 E3]; subst.
  destruct (forward_rows l x B Hl Hx) as (y1 & Ey1 & S1 & V1).
  assert (C1 : call h k x = Ok y1) by (rewrite call_unfold, Gk by (auto; now apply (get_pw_lt _ _ _ Gk)); exact Ey1).
  unfold train_forward. rewrite G, Q. cbn [train_run]. destruct (Nat.eqb_spec k dl) as [->|Nk]; [rewrite Gd in Gk; discriminate|]. rewrite Gk, C1. cbn [rbind].
  destruct (train_through h dl 1 ls (pw_out l) m Wh ltac:(eauto) Ch' ks F keep (fun _ _ _ => false) y1 B S1) as (y & Ey & Sy & Hy).
  { intros j z b i. unfold dropout_train, drop, dropout_scale. cbn [at_]. destruct Req_EM_T; [ring|lra]. }
  exists y. do 2 (split; auto). intros b o Hb Ho. rewrite Hy by auto. apply (all_dropped 1 _ _ _ Ch' _ _ _ _ 0%nat); auto.
  apply (f_equal (@length _)) in M. rewrite map_length in M. unfold mlp_configs in M. cbn [length] in M. rewrite app_length, repeat_length in M. cbn in M. lia.
Qed.
Print Assumptions C108_dropout_one.

(** ** The range of kept values *)
(** Whatever is kept, the inputs of the next layer stay in [[-1,1]] if and only if they were in [[-(1-p),1-p]]. *)
Theorem C108_range : forall p v i, 0 <= p < 1 -> ((forall keep, -1 <= drop p keep v i <= 1) <-> Rabs (v i) <= 1 - p).
Proof.
  intros p v i Hp. unfold drop. split.
  - intros A. specialize (A (fun _ => true)). cbv beta iota in A. replace (v i) with ((1 - p) * (v i / (1 - p))) by (field; lra). rewrite Rabs_mult, (Rabs_pos_eq (1 - p)) by lra.
    assert (Q : Rabs (v i / (1 - p)) <= 1) by (apply Rabs_le; lra). apply (Rmult_le_compat_l (1 - p)) in Q; lra.
  - intros A keep. destruct (keep i); [|lra]. assert (Q : Rabs (v i / (1 - p)) <= 1); [|unfold Rabs in Q; destruct Rcase_abs in Q; lra]. unfold Rdiv. rewrite Rabs_mult, (Rabs_pos_eq (/ (1 - p))) by (apply Rlt_le, Rinv_0_lt_compat; lra).
    apply (Rmult_le_reg_r (1 - p)); [lra|]. rewrite Rmult_assoc, Rinv_l by lra. lra.
Qed.
Print Assumptions C108_range.

(** ** The mean over all decisions *)
(** The expectation of [f], whose value depends on the first [n] decisions only, each entry being kept with probability [1-p]. *)
Fixpoint mean (p : R) (n : nat) (f : (nat -> bool) -> R) : R :=
  match n with
  | O => f (fun _ => false)
  | S n => p * mean p n (fun k => f (fun i => if Nat.eqb i n then false else k i)) + (1 - p) * mean p n (fun k => f (fun i => if Nat.eqb i n then true else k i))
  end.

Lemma mean_ext p n f g : (forall k, f k = g k) -> mean p n f = mean p n g.
Proof. revert f g. induction n as [|n IH]; intros f g E; cbn [mean]; auto. f_equal; f_equal; apply IH; intros; apply E. Qed.
Lemma mean_const p n c : mean p n (fun _ => c) = c.
Proof. induction n as [|n IH]; cbn [mean]; auto. rewrite IH. ring. Qed.
Lemma mean_plus p n f g : mean p n (fun k => f k + g k) = mean p n f + mean p n g.
Proof. revert f g. induction n as [|n IH]; intros f g; cbn [mean]; auto. rewrite !IH. ring. Qed.
Lemma mean_single p n i (g : bool -> R) : (i < n)%nat -> mean p n (fun k => g (k i)) = p * g false + (1 - p) * g true.
Proof.
  induction n as [|n IH]; intros Hi; [lia|]. cbn [mean]. destruct (Nat.eqb_spec i n) as [->|Ne]; [now rewrite !mean_const|]. rewrite IH by lia. ring.
Qed.
Lemma mean_rsum p n m (g : nat -> bool -> R) : (m <= n)%nat -> mean p n (fun k => rsum m (fun i => g i (k i))) = rsum m (fun i => p * g i false + (1 - p) * g i true).
Proof.
  induction m as [|m IH]; intros Hm; cbn [rsum]; [apply mean_const|]. rewrite mean_plus, IH by lia. now rewrite mean_single by lia.
Qed.

(** The entries themselves are unbiased; so is the output of a layer with one segment and two nodes; the output of any other
    sum layer, one function [f i] per input, averages these at the dropped and at the enlarged inputs. *)
Theorem C108_mean : forall p l o v, 0 <= p < 1 -> held l -> (o < pw_out l)%nat ->
  (forall i, (i < pw_in l)%nat -> mean p (pw_in l) (fun keep => drop p keep v i) = v i) /\
  (forall f, (forall u, layer_out l u o = rsum (pw_in l) (fun i => f i (u i))) ->
     mean p (pw_in l) (fun keep => layer_out l (drop p keep v) o) = rsum (pw_in l) (fun i => p * f i 0 + (1 - p) * f i (v i / (1 - p)))) /\
  (pw_length l = 2 -> pw_periodicity l = None -> sum_class (pw_cls l) -> pw_n l = 2%nat -> pw_segments l = 1%nat ->
     mean p (pw_in l) (fun keep => layer_out l (drop p keep v) o) = layer_out l v o).
Proof.
  intros p l o v Hp H Ho. split; [|split].
  - intros i Hi. unfold drop. rewrite (mean_single p (pw_in l) i (fun b => if b then v i / (1 - p) else 0)) by auto. field. lra.
  - intros f Hf. set (gg := fun (i : nat) (b : bool) => f i (if b then v i / (1 - p) else 0)).
    rewrite (mean_ext p _ _ (fun k => rsum (pw_in l) (fun i => gg i (k i)))) by (intros k; rewrite Hf; reflexivity).
    now rewrite (mean_rsum p (pw_in l) (pw_in l) gg) by lia.
  - intros HL Hper Hc Hn Hs.
    assert (Lk : forall u, layer_out l u o = rsum (pw_in l) (fun i => (1 - u i) / 2 * at_ (pw_w l) [o; i; 0%nat] + (1 + u i) / 2 * at_ (pw_w l) [o; i; 1%nat])).
    { intros u. rewrite layer_out_sum by auto. apply rsum_ext. intros i Hi. unfold link. rewrite Hper. cbn [apply_periodicity].
      destruct (link_interp l o i (u i) H HL) as (s & Hin & ->). assert (s = 0%nat) by (destruct Hin; lia). subst s. rewrite Hs, Hn.
      replace (seg_local 1 0 (u i)) with (u i) by (unfold seg_local, knot; simpl; field). rewrite interp_two, !weight_pos_eq. reflexivity. }
    set (gg := fun (i : nat) (b : bool) => (1 - (if b then v i / (1 - p) else 0)) / 2 * at_ (pw_w l) [o; i; 0%nat] + (1 + (if b then v i / (1 - p) else 0)) / 2 * at_ (pw_w l) [o; i; 1%nat]).
    rewrite (mean_ext p _ _ (fun k => rsum (pw_in l) (fun i => gg i (k i)))) by (intros k; rewrite Lk; reflexivity).
    rewrite (mean_rsum p (pw_in l) (pw_in l) gg) by lia. unfold gg. rewrite Lk. apply rsum_ext. intros i Hi. field. lra.
Qed.
Print Assumptions C108_mean.

(** A layer with one link, three nodes and one segment that squares its input. *)
Definition square : piecewise := with_w (new_piecewise PiecewisePolynomial 3 1 1 1 2 1 None (fun _ _ => 0)) (mkT [1; 1; 3]%nat (fun ix => match ix with [_; _; 1%nat] => 0 | _ => 1 end)).
Lemma square_held : held square.
Proof. apply with_w_held; [apply new_held; lia|reflexivity]. Qed.
Lemma square_out u : layer_out square u 0 = u 0%nat ^ 2.
Proof.
  rewrite layer_out_sum by (auto using square_held; cbn; auto; now left). cbn [square with_w new_piecewise pw_in rsum]. rewrite Rplus_0_l. unfold link. cbn [square with_w new_piecewise pw_periodicity apply_periodicity].
  fold square. destruct (link_interp square 0 0 (u 0%nat) square_held eq_refl) as (s & Hin & ->). assert (s = 0%nat) by (destruct Hin as (? & _); cbn in *; lia). subst s.
  cbn [square with_w new_piecewise pw_segments pw_n]. replace (seg_local 1 0 (u 0%nat)) with (u 0%nat) by (unfold seg_local, knot; simpl; field).
  apply (interpolates_interp 3 _ (fun x => x ^ 2)); [lia|]. split.
  - exists (fun k => if Nat.eqb k 2 then 1 else 0). intros y. cbn. ring.
  - assert (L0 : lobatto 3 0 = -1) by (apply (node_first 3); lia). assert (L2 : lobatto 3 2 = 1) by (apply (node_last 3); lia).
    assert (L1 : lobatto 3 1 = 0) by (unfold lobatto; cbn; replace (1 * PI / (1 + 1)) with (PI / 2) by field; rewrite cos_PI2; ring).
    intros [|[|[|k]]] Hk; try lia; rewrite ?L0, ?L1, ?L2; cbn; ring.
Qed.

(** The output of a layer is not unbiased in general: at 1/2 the squaring layer returns 1/4 in evaluation and 1/2 on average in training. *)
Theorem C108_unbiased_output_refuted : ~ (forall p l o v, 0 <= p < 1 -> held l -> (o < pw_out l)%nat -> pw_length l = 2 -> pw_periodicity l = None -> sum_class (pw_cls l) ->
  (forall i, (i < pw_in l)%nat -> Rabs (v i) <= 1 - p) -> mean p (pw_in l) (fun keep => layer_out l (drop p keep v) o) = layer_out l v o).
Proof.
  intros A. specialize (A (1/2) square 0%nat (fun _ => 1/2) ltac:(lra) square_held ltac:(cbn; lia) eq_refl eq_refl ltac:(now left) ltac:(intros; rewrite Rabs_pos_eq; lra)).
  cbn [square with_w new_piecewise pw_in mean] in A. fold square in A. rewrite !square_out in A. unfold drop in A. cbn in A. lra.
Qed.
Print Assumptions C108_unbiased_output_refuted.

(** ** A concrete case: a freshly built 2-3-1 network with one hidden layer and dropout 1/4: what the first sample of a batch gives
    when the first use of the dropout drops all of it, and the two means of the squaring layer. *)
Example C108_case : forall g, exists net h1, HighOrderMLP g (with_dropout "continuous" 3 2 1 1 3 2 2 2 (1/4)) [] = Ok (net, h1) /\
  (forall x x' B, shape x = [B; 2%nat] -> shape x' = [B; 2%nat] -> (0 < B)%nat -> exists y y',
     train_forward h1 net (1/4) (fun j ix => negb (Nat.eqb j 0)) x = Ok y /\ train_forward h1 net (1/4) (fun j ix => negb (Nat.eqb j 0)) x' = Ok y' /\ at_ y [0; 0]%nat = at_ y' [0; 0]%nat) /\
  mean (1/2) 1 (fun keep => layer_out square (drop (1/2) keep (fun _ => 1/2)) 0) = 1/2 /\ layer_out square (fun _ => 1/2) 0 = 1/4.
Proof.
  intros g. assert (Wf : wf_heap []) by (intros k Hk; cbn in Hk; lia).
  assert (P : plain_mlp (with_dropout "continuous" 3 2 1 1 3 2 2 2 (1/4)) 3 3 3 2 2 2) by (apply with_dropout_plain; try lia; try lra; unfold refinable_type; tauto).
  destruct (mlp_spec g _ 3 3 3 2 2 2 [] 0 P Wf ltac:(intros k Ek; discriminate)) as (net & e & dl & k1 & k2 & q & L & E & _).
  exists net, ([] ++ e). split; [exact E|]. split.
  - intros x x' B Hx Hx' HB.
    destruct (C108_training g "continuous" PiecewisePolynomial 3 2 1 1 3 2 2 2 (1/4) [] net ([] ++ e) ([] ++ e) Wf ltac:(now left) ltac:(lia) ltac:(lia) ltac:(lia) ltac:(lia) ltac:(lia) ltac:(lia) ltac:(lia) ltac:(lra) E (NetCopy.retrained_refl _)) as (l & ls & _ & _ & R).
    destruct (proj2 (R x B Hx) (fun j ix => negb (Nat.eqb j 0))) as (y & Ey & _). destruct (proj2 (R x' B Hx') (fun j ix => negb (Nat.eqb j 0))) as (y' & Ey' & _).
    exists y, y'. do 2 (split; auto).
    apply (C108_all_dropped g "continuous" PiecewisePolynomial 3 2 1 1 3 2 2 2 (1/4) [] net ([] ++ e) ([] ++ e) (fun j ix => negb (Nat.eqb j 0)) x x' B y y' 0 0); auto; try lia; try lra. apply NetCopy.retrained_refl.
  - rewrite (mean_ext _ _ _ (fun keep => drop (1/2) keep (fun _ => 1/2) 0%nat ^ 2)) by (intros; apply square_out). rewrite square_out. unfold drop. cbn. split; lra.
Qed.
