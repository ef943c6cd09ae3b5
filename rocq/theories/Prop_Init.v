(** * Initialisation and smoothing of whole networks (C76, C77). *)
From Coq Require Import String Reals Lra ZArith List Lia Bool Arith.
From Verif Require Import Spec Tensor Utils LagrangePolynomial Basis PolynomialLayers Refine ProductLayer LagrangeND Layers Networks
  Observe ObserveNet SumFacts TensorFacts LayerFacts SegmentFacts LayerProofs RefineFacts HeapFacts NetFacts NetCopy Prop_Layers Prop_Refine Prop_Product Prop_Net Prop_Continuity.
Import ListNotations.
Local Open Scope R_scope.

(** ** Modules of a HighOrderMLP *)
Lemma mlp_hidden_extends g a dl n : forall i L h L' h', mlp_hidden g a dl n i L h = Ok (L', h') -> exists r, L' = L ++ r.
Proof.
  induction n as [|n IH]; intros i L h L' h' E; cbn [mlp_hidden] in E.
  - injection E as <- <-. exists []. now rewrite app_nil_r.
  - unfold mthen in E.
    destruct (between _ _ h) as [[b h1]|]; [|discriminate]. cbn zeta in E.
    destruct (mlp_layer _ _ _ _ _ _ _ h1) as [[k h2]|]; [|discriminate].
    match type of E with match ?c with _ => _ end = _ => destruct c as [[k' h3]|]; [|discriminate] end.
    apply IH in E. destruct E as (r & ->). rewrite <- !app_assoc. eexists. reflexivity.
Qed.
Lemma mlp_ends g a h net h' : HighOrderMLP g a h = Ok (net, h') ->
  exists dl k1 k2 m L, get h' net = OMLP dl k1 k2 m /\ get h' m = OSequential L /\ In k1 L /\ In k2 L.
Proof.
  unfold HighOrderMLP. destruct Rlt_dec; [discriminate|]. destruct Rlt_dec; [discriminate|]. unfold mthen, alloc.
  destruct (mlp_layer _ _ _ _ _ _ _ _) as [[k1 h1]|]; [|discriminate].
  destruct (mlp_hidden _ _ _ _ _ _ _) as [[ls h2]|] eqn:El; [|discriminate].
  destruct (between _ _ h2) as [[b h3]|]; [|discriminate].
  destruct (mlp_layer _ _ _ _ _ _ _ h3) as [[k2 h4]|]; [|discriminate].
  intros E. injection E as <- <-. apply mlp_hidden_extends in El. destruct El as (r & ->).
  eexists _, k1, k2, _, _. split; [apply get_last|]. split; [rewrite get_app_l by (rewrite app_length; cbn; lia); apply get_last|].
  split; [now left|]. rewrite !app_assoc. apply in_or_app. right. now left.
Qed.

Lemma firsts_In L : forall M k, In k (firsts M L) <-> In k M \/ In k L.
Proof.
  induction L as [|a L IH]; intros M k; cbn [firsts In]; [tauto|]. rewrite IH. destruct (mem a M) eqn:E.
  - apply mem_In in E. split; intros [H|H]; auto. destruct H as [<-|H]; auto.
  - rewrite in_app_iff. cbn. tauto.
Qed.
Lemma firsts_NoDup L : forall M, NoDup M -> NoDup (firsts M L).
Proof.
  induction L as [|a L IH]; intros M N; cbn [firsts]; [exact N|]. apply IH. destruct (mem a M) eqn:E; [exact N|].
  apply NoDup_app_disj; auto; [repeat constructor; intros []|]. intros b Hb [<-|[]]. apply mem_In in Hb. congruence.
Qed.

Section Mlp.
Variables (h : heap) (net dl k1 k2 m nl base : nat) (L : list nat) (Sl : list slot).
Hypotheses (Wf : wf_heap h) (N1 : (net < length h)%nat) (G1 : get h net = OMLP dl k1 k2 m) (M1 : (m < length h)%nat)
  (Q1 : get h m = OSequential L) (B1 : built base nl dl h L Sl) (D1 : (dl < length h)%nat) (E1 : get h dl = OModule (fun x => Ok x) [])
  (I1 : In k1 L) (I2 : In k2 L).

Lemma mlp_modules : NoDup (modules h net) /\ forall k, In k (modules h net) <-> k = net \/ k = dl \/ k = m \/ In k L.
Proof.
  assert (F : forall k, In k [dl; k1; k2] -> (k < length h)%nat /\ children (get h k) = []).
  { intros k [<-|[<-|[<-|[]]]]; [rewrite E1; now split| |]; split; eapply built_childless; eauto. }
  assert (FL : forall k, In k L -> (k < length h)%nat /\ children (get h k) = []) by (intros k Hk; split; eapply built_childless; eauto).
  assert (Mm : (m < net)%nat) by (apply (Wf net N1); rewrite G1; cbn; auto).
  assert (Md : forall k, In k L -> (k < m)%nat) by (intros k Hk; apply (Wf m M1); now rewrite Q1).
  change (modules h net) with (walk h net []). rewrite walk_unfold, G1 by auto. cbn [mem existsb children app].
  change [dl; k1; k2; m] with ([dl; k1; k2] ++ [m]). rewrite fold_left_app, (firsts_fold h [dl; k1; k2]) by auto. cbn [fold_left].
  set (A := firsts [net] [dl; k1; k2]).
  assert (NA : NoDup A) by (apply firsts_NoDup; repeat constructor; intros []).
  assert (IA : forall k, In k A <-> k = net \/ k = dl \/ k = k1 \/ k = k2).
  { intros k. unfold A. rewrite firsts_In. cbn. intuition auto. }
  rewrite walk_unfold, Q1 by auto. cbn [children].
  destruct (mem m A) eqn:Em.
  - exfalso. apply mem_In, IA in Em. pose proof (Md k1 I1). pose proof (Md k2 I2). destruct Em as [C|[C|[C|C]]]; try lia.
    rewrite C, E1 in Q1. discriminate.
  - rewrite firsts_fold by auto. split.
    + apply firsts_NoDup. apply NoDup_app_disj; auto; [repeat constructor; intros []|]. intros b Hb [<-|[]]. apply mem_In in Hb. congruence.
    + intros k. rewrite firsts_In, in_app_iff, IA. cbn. split.
      * intros [[[->|[->|[->| ->]]]|[->|[]]]|H]; auto.
      * intros [->|[->|[->|H]]]; auto.
Qed.

Lemma mlp_model_modules : modules h m = firsts [m] L /\ NoDup (modules h m) /\ forall k, In k (modules h m) <-> k = m \/ In k L.
Proof.
  assert (FL : forall k, In k L -> (k < length h)%nat /\ children (get h k) = []) by (intros k Hk; split; eapply built_childless; eauto).
  rewrite (modules_sequential h m L) by auto. split; auto. split; [apply firsts_NoDup; repeat constructor; intros []|].
  intros k. rewrite firsts_In. cbn. intuition auto.
Qed.
End Mlp.

(** ** The loops *)
Lemma mfold_app_gen {A B} (f : B -> A -> mut A) l l' : forall s,
  mfold f (l ++ l') s = match mfold f l s with (s', None) => mfold f l' s' | (s', Some e) => (s', Some e) end.
Proof. induction l as [|b l IH]; intros s; cbn; [reflexivity|]. destruct (f b s) as [s1 [e|]]; [reflexivity|apply IH]. Qed.

Lemma get_pw_lt h k l : get h k = OPiecewise l -> (k < length h)%nat.
Proof. intros E. destruct (Nat.lt_ge_cases k (length h)); auto. rewrite get_out in E by auto. discriminate. Qed.

(** Objects keep everything but the values of their weights. *)
Definition same_kind (h h' : heap) : Prop := length h' = length h /\ forall k, polynomial_layers h' k = polynomial_layers h k.
Lemma init_layer_kind ms mo ra rb k h : same_kind h (fst (init_layer ms mo ra rb k h)).
Proof.
  unfold init_layer. destruct (get h k) eqn:E; try (split; reflexivity). destruct (initialize_polynomial_layer _ _ _ _ _) as [w e]. cbn [fst].
  pose proof (get_pw_lt _ _ _ E) as Lk. split; [now apply set_obj_length|]. intros j. unfold polynomial_layers.
  destruct (Nat.eq_dec k j) as [<-|N]; [rewrite get_set_same, E by auto; reflexivity|now rewrite get_set_other].
Qed.
Lemma same_kind_trans h1 h2 h3 : same_kind h1 h2 -> same_kind h2 h3 -> same_kind h1 h3.
Proof. intros (L1 & K1) (L2 & K2). split; [congruence|]. intros k. now rewrite K2. Qed.
Lemma mfold_kind {B} (f : B -> heap -> mut heap) l : (forall b h, same_kind h (fst (f b h))) -> forall h, same_kind h (fst (mfold f l h)).
Proof.
  intros F. induction l as [|b l IH]; intros h; cbn; [split; reflexivity|]. pose proof (F b h) as K. destruct (f b h) as [s1 [e|]]; [exact K|].
  cbn [fst] in K. eapply same_kind_trans; [exact K|apply IH].
Qed.

Definition init_task ms mo sc ra rb (t : nat * nat) : heap -> mut heap := init_layer (ms * sc (snd t)) mo ra rb (fst t).
Lemma init_visit_tasks ms mo sc ra rb k h : init_visit ms mo sc ra rb k h = mfold (init_task ms mo sc ra rb) (polynomial_layers h k) h.
Proof.
  unfold init_visit, polynomial_layers. destruct (get h k) eqn:E; try reflexivity.
  - cbn [mfold]. unfold init_task. cbn [fst snd]. destruct (init_layer _ _ _ _ _ _) as [s [e|]]; reflexivity.
  - clear E. revert h. induction layers as [|j ls IH]; intros h; [reflexivity|]. cbn [map mfold].
    unfold init_task at 1. cbn [fst snd]. destruct (init_layer _ _ _ _ _ _) as [s [e|]]; [reflexivity|apply IH].
Qed.
Lemma init_visits_tasks ms mo sc ra rb Ks : forall h,
  mfold (init_visit ms mo sc ra rb) Ks h = mfold (init_task ms mo sc ra rb) (flat_map (polynomial_layers h) Ks) h.
Proof.
  induction Ks as [|k Ks IH]; intros h; [reflexivity|]. cbn [mfold flat_map]. rewrite mfold_app_gen, init_visit_tasks.
  pose proof (mfold_kind (init_task ms mo sc ra rb) (polynomial_layers h k) (fun b h => init_layer_kind _ _ _ _ _ h) h) as K.
  destruct (mfold _ (polynomial_layers h k) h) as [s [e|]]; [reflexivity|]. cbn [fst] in K. rewrite IH.
  replace (flat_map (polynomial_layers s) Ks) with (flat_map (polynomial_layers h) Ks); [reflexivity|].
  apply flat_map_ext. intros j. symmetry. apply K.
Qed.

Lemma with_w_id l : with_w l (pw_w l) = l.
Proof. now destruct l. Qed.
Lemma set_obj_same h k : (k < length h)%nat -> set_obj h k (get h k) = h.
Proof.
  unfold set_obj. revert k. induction h as [|o h IH]; intros k Hk; [cbn in Hk; lia|]. destruct k as [|k]; [reflexivity|].
  cbn in Hk. cbn [firstn app Nat.add skipn]. f_equal. apply IH. lia.
Qed.

Lemma init_one ms mo ra rb k h : (forall l, get h k = OPiecewise l -> held l /\ pw_length l = 2 /\ (2 <= pw_n l)%nat) ->
  exists h', init_layer ms mo ra rb k h = (h', None) /\ length h' = length h /\ (forall j, j <> k -> get h' j = get h j) /\
    match get h k with
    | OPiecewise l => match pw_cls l with
                      | PiecewisePolynomialProd => get h' k = get h k
                      | _ => exists w', shape w' = shape (pw_w l) /\ get h' k = OPiecewise (with_w l w') /\
                             straight_links (with_w l w') (fun o i => ms * (2 * ra k o i - 1)) (fun o i => mo * (2 * rb k o i - 1))
                      end
    | _ => get h' k = get h k
    end.
Proof.
  intros H. unfold init_layer. destruct (get h k) eqn:E; try (exists h; repeat split; now auto).
  destruct (H l eq_refl) as (Hl & HL & Hn). pose proof (get_pw_lt _ _ _ E) as Lk.
  assert (C : pw_cls l = PiecewisePolynomialProd \/ pw_cls l <> PiecewisePolynomialProd) by (destruct (pw_cls l); (now left) || (right; discriminate)).
  destruct C as [C|C].
  - rewrite C23_other_types_untouched, C by auto. exists h. rewrite with_w_id, <- E, set_obj_same by auto. auto.
  - destruct (init_link l ms mo (ra k) (rb k) Hl C HL Hn) as (w' & Ew & Sh & V). rewrite Ew.
    exists (set_obj h k (OPiecewise (with_w l w'))). split; auto. split; [now apply set_obj_length|].
    split; [intros j Hj; apply get_set_other; auto|].
    assert (G : exists w'0, shape w'0 = shape (pw_w l) /\ get (set_obj h k (OPiecewise (with_w l w'))) k = OPiecewise (with_w l w'0) /\
       straight_links (with_w l w'0) (fun o i => ms * (2 * ra k o i - 1)) (fun o i => mo * (2 * rb k o i - 1))).
    { exists w'. split; auto. split; [now apply get_set_same|]. intros o i Ho Hi t.
      rewrite one_link_link by (now apply with_w_held). now apply V. }
    destruct (pw_cls l); try exact G. now destruct C.
Qed.

Lemma init_tasks_run ms mo sc ra rb T : forall h, NoDup (map fst T) ->
  (forall k i l, In (k, i) T -> get h k = OPiecewise l -> held l /\ pw_length l = 2 /\ (2 <= pw_n l)%nat) ->
  exists h', mfold (init_task ms mo sc ra rb) T h = (h', None) /\ length h' = length h /\
    (forall k, (forall l, In k (map fst T) -> get h k = OPiecewise l -> pw_cls l = PiecewisePolynomialProd) -> get h' k = get h k) /\
    forall k i l, In (k, i) T -> get h k = OPiecewise l -> pw_cls l <> PiecewisePolynomialProd ->
      exists w', shape w' = shape (pw_w l) /\ get h' k = OPiecewise (with_w l w') /\
        straight_links (with_w l w') (fun o j => ms * sc i * (2 * ra k o j - 1)) (fun o j => mo * (2 * rb k o j - 1)).
Proof.
  induction T as [|[k i] T IH]; intros h N H; cbn [mfold].
  { exists h. repeat split; auto. intros k i l []. }
  cbn [map fst] in N. inversion N as [|? ? Nk NT]; subst.
  destruct (init_one (ms * sc i) mo ra rb k h) as (h1 & E1 & L1 & O1 & V1); [intros l El; eapply H; [now left|exact El]|].
  unfold init_task at 1. cbn [fst snd]. rewrite E1.
  destruct (IH h1 NT) as (h' & E' & L' & O' & V').
  { intros k' i' l Hin El. rewrite O1 in El; [eapply H; [right|]; eauto|]. intros ->. apply Nk. apply in_map_iff. now exists (k, i'). }
  exists h'. split; auto. split; [congruence|]. split.
  - intros j Hj. cbn [map fst] in Hj.
    assert (G1 : get h1 j = get h j).
    { destruct (Nat.eq_dec j k) as [->|D]; [|auto]. destruct (get h k) eqn:Ek; auto. rewrite (Hj l) in V1 by (auto; now left). exact V1. }
    rewrite O'; auto. intros l Hin El. rewrite G1 in El. apply Hj; auto. now right.
  - intros k' i' l [Eq|Hin] El C.
    + injection Eq as <- <-. rewrite El in V1.
      assert (V : exists w', shape w' = shape (pw_w l) /\ get h1 k = OPiecewise (with_w l w') /\
             straight_links (with_w l w') (fun o j => ms * sc i * (2 * ra k o j - 1)) (fun o j => mo * (2 * rb k o j - 1)))
        by (destruct (pw_cls l); auto; now destruct C).
      destruct V as (w' & Sh & G & S). exists w'. split; auto. split; auto. rewrite O'; auto. intros l' Hin. contradiction.
    + assert (D : k' <> k) by (intros ->; apply Nk; apply in_map_iff; now exists (k, i')).
      rewrite <- (O1 k' D) in El. eauto.
Qed.

(** ** C76 *)
(** Whatever the network: the layers among its modules and the branches of switch layers become straight lines whose
    slopes are the drawn numbers times [max_slope * scale_slope(inputs)], and nothing else changes. *)
Theorem C76_network_initialisation : forall h net ms mo sc ra rb,
  let visited := flat_map (polynomial_layers h) (modules h net) in
  NoDup (map fst visited) ->
  (forall k i l, In (k, i) visited -> get h k = OPiecewise l -> held l /\ pw_length l = 2 /\ (2 <= pw_n l)%nat) ->
  exists h', initialize_network_polynomial_layers net ms mo sc ra rb h = (h', None) /\ length h' = length h /\
    (forall k, (forall l, In k (map fst visited) -> get h k = OPiecewise l -> pw_cls l = PiecewisePolynomialProd) -> get h' k = get h k) /\
    forall k i l, In (k, i) visited -> get h k = OPiecewise l -> pw_cls l <> PiecewisePolynomialProd ->
      exists w', shape w' = shape (pw_w l) /\ get h' k = OPiecewise (with_w l w') /\
        straight_links (with_w l w') (fun o j => ms * sc i * (2 * ra k o j - 1)) (fun o j => mo * (2 * rb k o j - 1)).
Proof.
  intros h net ms mo sc ra rb visited N H. unfold initialize_network_polynomial_layers. rewrite init_visits_tasks.
  replace (flat_map (polynomial_layers h) (filter (fun k => negb (is_sequential (get h k))) (modules h net))) with visited.
  - now apply init_tasks_run.
  - unfold visited. clear. induction (modules h net) as [|k Ks IH]; [reflexivity|]. cbn [filter flat_map]. rewrite IH.
    destruct (is_sequential (get h k)) eqn:E; [|reflexivity]. cbn [negb]. unfold polynomial_layers at 1. destruct (get h k); try discriminate. reflexivity.
Qed.
Print Assumptions C76_network_initialisation.

(** *** HighOrderMLP *)
Definition activation_in (h : heap) (a : mlp_args) : Prop :=
  forall k, ma_non_linearity a = Some k -> (k < length h)%nat /\ exists f ps, get h k = OModule f ps.

Lemma mlp_view g a h0 h1 h net ni nh no si sh so : wf_heap h0 -> plain_mlp a ni nh no si sh so -> activation_in h0 a ->
  HighOrderMLP g a h0 = Ok (net, h1) -> retrained h1 h ->
  exists nl dl k1 k2 m L, wf_heap h /\ (net < length h)%nat /\ get h net = OMLP dl k1 k2 m /\ (m < length h)%nat /\ get h m = OSequential L /\
    built (length h0) nl dl h L (mlp_slots a ni nh no si sh so) /\ (dl < length h)%nat /\ get h dl = OModule (fun x => Ok x) [] /\
    In k1 L /\ In k2 L /\ (forall k, ma_non_linearity a = Some k -> nl = k /\ (k < length h0)%nat /\ get h k = get h0 k) /\ (length h0 <= length h)%nat.
Proof.
  intros W P A E Rt.
  set (nl := match ma_non_linearity a with Some k => k | None => 0%nat end).
  destruct (mlp_spec g a ni nh no si sh so h0 nl P W) as (n1 & e & dl & k1 & k2 & m & L & E1 & G1 & Q1 & B1 & (V1 & V2 & _) & Ln & Lm & X & D).
  { intros k Ek. unfold nl. destruct (A k Ek) as (Lk & M). rewrite Ek. auto. }
  rewrite E1 in E. injection E as -> <-.
  destruct (mlp_ends g a h0 net (h0 ++ e) E1) as (dl' & k1' & k2' & m' & L' & G2 & Q2 & I1 & I2).
  rewrite G1 in G2. injection G2 as <- <- <- <-. rewrite Q1 in Q2. injection Q2 as <-.
  assert (Wf : wf_heap (h0 ++ e)) by apply B1.
  assert (Len : length h = length (h0 ++ e)) by apply Rt.
  assert (Same : forall k o, get (h0 ++ e) k = o -> (k < length (h0 ++ e))%nat -> match o with OSequential _ | OMLP _ _ _ _ | OModule _ _ => True | _ => False end -> get h k = o).
  { intros k o Ek Lk Ho. pose proof (retrained_same (h0 ++ e) h k Rt Lk) as S. rewrite Ek in S. destruct o; try contradiction; exact S. }
  exists nl, dl, k1, k2, m, L. rewrite Len.
  split; [now apply (retrained_wf (h0 ++ e))|]. split; auto. split; [now apply Same|]. split; auto. split; [now apply Same|].
  split; [now apply (built_retrained _ _ _ (h0 ++ e))|]. split; auto. split; [now apply Same|]. split; auto. split; auto.
  split; [|rewrite app_length; lia]. intros k Ek. unfold nl. rewrite Ek. split; auto. destruct (A k Ek) as (Lk & f & ps & Gk). split; auto. rewrite Gk. apply Same; auto.
  - now rewrite get_app_l.
  - rewrite app_length. lia.
Qed.

Lemma leaves_polynomial h k : leaves h k = map fst (polynomial_layers h k).
Proof. unfold leaves, polynomial_layers. destruct (get h k); try reflexivity. cbn. rewrite map_map. cbn. now rewrite map_id. Qed.
Lemma flat_leaves_polynomial h L : flat_map (leaves h) L = map fst (flat_map (polynomial_layers h) L).
Proof. induction L as [|k L IH]; [reflexivity|]. cbn. now rewrite map_app, leaves_polynomial, IH. Qed.

Lemma layer_slot_cases lt n I O s per : refinable_type lt ->
  (exists c, sum_class c /\ layer_slot lt n I O s per = SP (pw_slot c n I O s per)) \/
  (exists c, sum_class c /\ layer_slot lt n I O s per = SSw [pw_slot c n I O s None; pw_slot c n I O s None]).
Proof.
  intros [->|[->|[->| ->]]]; cbn.
  - left. eexists. split; [now left|reflexivity].
  - left. eexists. split; [now right|reflexivity].
  - right. eexists. split; [now left|reflexivity].
  - right. eexists. split; [now right|reflexivity].
Qed.
Definition good_cfg (c : cfg) : Prop := sum_class (c_cls c) /\ c_len c = 2 /\ (2 <= c_n c)%nat.
Definition good_slot (s : slot) : Prop := match s with SP c => good_cfg c | SSw cs => Forall good_cfg cs | _ => True end.
Lemma layer_slot_good lt n I O s per : refinable_type lt -> (2 <= n)%nat -> good_slot (layer_slot lt n I O s per).
Proof.
  intros T Hn. destruct (layer_slot_cases lt n I O s per T) as [(c & Hc & ->)|(c & Hc & ->)]; cbn.
  - repeat split; auto.
  - repeat (apply Forall_cons; [repeat split; auto|]). constructor.
Qed.
Lemma mlp_slots_all (P : slot -> Prop) a ni nh no si sh so :
  P (layer_slot (or_string (ma_layer_type_in a) (ma_layer_type a)) ni (ma_in_width a) (ma_hidden_width a) si (ma_periodicity a)) ->
  P (layer_slot (ma_layer_type a) nh (ma_hidden_width a) (ma_hidden_width a) sh (ma_periodicity a)) ->
  P (layer_slot (ma_layer_type a) no (ma_hidden_width a) (ma_out_width a) so (ma_periodicity a)) ->
  (forall f ps, ma_normalization a = Some (f, ps) -> P (SM f)) ->
  (forall k, ma_non_linearity a = Some k -> P SNl) -> P SDrop ->
  Forall P (mlp_slots a ni nh no si sh so).
Proof.
  intros P1 P2 P3 Pm Pn Pd.
  assert (Bt : Forall P (between_slots (ma_normalization a) (ma_non_linearity a))).
  { unfold between_slots. apply Forall_app. split.
    - destruct (ma_normalization a) as [[f ps]|]; constructor; eauto.
    - destruct (ma_non_linearity a); constructor; eauto. }
  assert (Dr : Forall P (drop_slots a)) by (unfold drop_slots; destruct Rlt_dec; auto).
  assert (One : forall s, P s -> Forall P [s]) by auto.
  assert (Hd : Forall P (concat (repeat (hidden_slots a nh sh) (ma_hidden_layers a)))).
  { induction (ma_hidden_layers a) as [|n IH]; [constructor|]. cbn [repeat concat]. apply Forall_app. split; [|exact IH].
    unfold hidden_slots. apply Forall_app; split; [exact Bt|]. apply Forall_app; split; [exact Dr|auto]. }
  unfold mlp_slots. apply Forall_app; split; [auto|]. apply Forall_app; split; [exact Hd|].
  apply Forall_app; split; [exact Bt|]. apply Forall_app; split; [exact Dr|auto].
Qed.

Lemma built_slot base nl dl h L Sl k : built base nl dl h L Sl -> In k L -> exists s, In s Sl /\ describes nl dl h k s.
Proof.
  intros B. pose proof (b_desc _ _ _ _ _ _ B) as F. clear B. induction F as [|k' s L' Sl' D F IH]; intros Hin; [destruct Hin|destruct Hin as [<-|Hin]].
  - exists s. split; auto. now left.
  - destruct (IH Hin) as (s' & Hs & Ds). exists s'. split; auto. now right.
Qed.

(** Slopes and offsets of all links are bounded. *)
Definition bounded_lines (l : piecewise) (ms mo : R) : Prop :=
  exists a b, straight_links l a b /\ (forall o i, Rabs (a o i) <= ms) /\ (forall o i, Rabs (b o i) <= mo).

Lemma mlp_initialised g a h0 h1 h net ni nh no si sh so ms mo sc ra rb :
  wf_heap h0 -> plain_mlp a ni nh no si sh so -> activation_in h0 a -> (2 <= ni)%nat -> (2 <= nh)%nat -> (2 <= no)%nat ->
  0 <= ms -> 0 <= mo -> (forall i, 0 <= sc i) -> (forall k o i, 0 <= ra k o i < 1) -> (forall k o i, 0 <= rb k o i < 1) ->
  HighOrderMLP g a h0 = Ok (net, h1) -> retrained h1 h ->
  exists h' nl dl k1 k2 m L, initialize_network_polynomial_layers net ms mo sc ra rb h = (h', None) /\ retrained h h' /\
    wf_heap h' /\ (net < length h')%nat /\ get h' net = OMLP dl k1 k2 m /\ (m < length h')%nat /\ get h' m = OSequential L /\
    built (length h0) nl dl h' L (mlp_slots a ni nh no si sh so) /\ (dl < length h')%nat /\ get h' dl = OModule (fun x => Ok x) [] /\
    (forall k, (k < length h0)%nat -> get h' k = get h k) /\
    forall k, In k L ->
      match get h' k with
      | OPiecewise l => bounded_lines l (ms * sc (pw_in l)) mo
      | OSwitch i _ ls _ => forall j, In j ls -> exists l, get h' j = OPiecewise l /\ bounded_lines l (ms * sc i) mo
      | _ => True
      end.
Proof.
  intros W P A Hi Hh Ho Hms Hmo Hsc Hra Hrb E Rt.
  destruct (mlp_view g a h0 h1 h net ni nh no si sh so W P A E Rt) as (nl & dl & k1 & k2 & m & L & Wf & Ln & G & Lm & Q & B & Ld & Gd & I1 & I2 & _).
  pose proof (mlp_modules h net dl k1 k2 m nl (length h0) L _ Wf Ln G Lm Q B Ld Gd I1 I2) as (N & M).
  set (visited := flat_map (polynomial_layers h) (modules h net)).
  assert (Gs : Forall good_slot (mlp_slots a ni nh no si sh so)).
  { destruct P. apply mlp_slots_all; try (now apply layer_slot_good); cbn; auto. }
  assert (Vin : forall k i, In (k, i) visited <-> exists j, In j L /\ In (k, i) (polynomial_layers h j)).
  { intros k i. unfold visited. rewrite in_flat_map. split.
    - intros (j & Hj & Hk). apply M in Hj. destruct Hj as [->|[->|[->|Hj]]]; [..|eauto]; unfold polynomial_layers in Hk; rewrite ?G, ?Gd, ?Q in Hk; destruct Hk.
    - intros (j & Hj & Hk). exists j. split; auto. apply M. auto. }
  assert (Pw : forall k i, In (k, i) visited -> exists c, good_cfg c /\ is_pw h k c).
  { intros k i Hk. apply Vin in Hk. destruct Hk as (j & Hj & Hk). destruct (built_slot _ _ _ _ _ _ j B Hj) as (s & Hs & _ & Ds).
    rewrite Forall_forall in Gs. specialize (Gs s Hs). destruct s; cbn in Gs.
    - destruct Ds as (l & El & Ds). unfold polynomial_layers in Hk. rewrite El in Hk. destruct Hk as [Eq|[]]. injection Eq as <- <-. exists c. split; auto. now exists l.
    - destruct Ds as (I & O & ls & El & F). unfold polynomial_layers in Hk. rewrite El in Hk. apply in_map_iff in Hk. destruct Hk as (q & Eq & Hq).
      injection Eq as -> <-. clear El Hs. induction F as [|q c ls cs Pq F IH]; [destruct Hq|]. inversion Gs; subst. destruct Hq as [<-|Hq]; [exists c; auto|apply IH; auto].
    - destruct Ds as (ps & El). unfold polynomial_layers in Hk. rewrite El in Hk. destruct Hk.
    - destruct Ds as (_ & f & ps & El). unfold polynomial_layers in Hk. rewrite El in Hk. destruct Hk.
    - destruct Ds as (_ & f & ps & El). unfold polynomial_layers in Hk. rewrite El in Hk. destruct Hk. }
  destruct (C76_network_initialisation h net ms mo sc ra rb) as (h' & Eh & Lh & Un & Vl).
  { rewrite <- flat_leaves_polynomial. apply (flat_NoDup (leaves h) ([net; dl; m] ++ L)); auto.
    - rewrite flat_map_app. cbn [flat_map]. replace (leaves h net) with (@nil nat) by (unfold leaves; now rewrite G).
      replace (leaves h dl) with (@nil nat) by (unfold leaves; now rewrite Gd). replace (leaves h m) with (@nil nat) by (unfold leaves; now rewrite Q). apply B.
    - intros k Hk. apply M in Hk. cbn. intuition auto. }
  { intros k i l Hk El. destruct (Pw k i Hk) as (c & (C1 & C2 & C3) & l' & El' & Hl & <-). rewrite El in El'. injection El' as <-. cbn in *. auto. }
  fold visited in Un, Vl.
  assert (Rt' : retrained h h').
  { split; auto. intros k Hk. destruct (in_dec Nat.eq_dec k (map fst visited)) as [Hin|Hn].
    - apply in_map_iff in Hin. destruct Hin as ([k' i] & Eq & Hin). cbn in Eq. subst k'.
      destruct (Pw k i Hin) as (c & (C1 & C2 & C3) & l & El & Hl & <-).
      destruct (Vl k i l Hin El) as (w' & Sh & G' & _); [destruct C1 as [C1|C1]; cbn in C1; rewrite C1; discriminate|].
      rewrite El, G'. now constructor.
    - rewrite Un by (intros l C; contradiction). constructor. }
  assert (Same : forall k o, get h k = o -> (k < length h)%nat -> match o with OSequential _ | OMLP _ _ _ _ | OModule _ _ => True | _ => False end -> get h' k = o).
  { intros k o Ek Lk Ho'. pose proof (retrained_same h h' k Rt' Lk) as S. rewrite Ek in S. destruct o; try contradiction; exact S. }
  exists h', nl, dl, k1, k2, m, L. rewrite Lh. split; auto. split; auto.
  split; [now apply (retrained_wf h)|]. split; auto. split; [now apply Same|]. split; auto. split; [now apply Same|].
  split; [now apply (built_retrained _ _ _ h)|]. split; auto. split; [now apply Same|]. split.
  { intros k Hk. apply Un. intros l Hin. exfalso.
    apply in_map_iff in Hin. destruct Hin as ([k' i] & Eq & Hin). cbn in Eq. subst k'. apply Vin in Hin. destruct Hin as (j & Hj & Hk').
    assert (C : In k (flat_map (leaves h) L)) by (rewrite flat_leaves_polynomial; apply in_map_iff; exists (k, i); split; auto; apply in_flat_map; eauto).
    apply (b_leaf_base _ _ _ _ _ _ B) in C. pose proof (b_dl _ _ _ _ _ _ B). lia. }
  assert (Bd : forall k i, In (k, i) visited -> exists l, get h' k = OPiecewise l /\ bounded_lines l (ms * sc i) mo).
  { intros k i Hin. destruct (Pw k i Hin) as (c & (C1 & C2 & C3) & l & El & Hl & <-).
    destruct (Vl k i l Hin El) as (w' & Sh & G' & S); [destruct C1 as [C1|C1]; cbn in C1; rewrite C1; discriminate|].
    exists (with_w l w'). split; auto. eexists _, _. split; [exact S|]. assert (S0 : 0 <= ms * sc i) by (apply Rmult_le_pos; auto).
    split; intros o j; apply Rabs_le; [specialize (Hra k o j)|specialize (Hrb k o j)]; [generalize dependent (ms * sc i); intros; nra|nra]. }
  intros k Hk. assert (Lk : (k < length h)%nat) by (eapply built_lt; eauto).
  destruct (get h' k) eqn:Ek; auto.
  - assert (El : exists l0, get h k = OPiecewise l0 /\ pw_in l0 = pw_in l).
    { destruct Rt' as (_ & R). specialize (R k Lk). rewrite Ek in R. inversion R; subst; eexists; split; try reflexivity; eauto. }
    destruct El as (l0 & El & Ein). destruct (Bd k (pw_in l0)) as (l1 & G' & Hb).
    + apply Vin. exists k. split; auto. unfold polynomial_layers. rewrite El. now left.
    + rewrite Ek in G'. injection G' as <-. now rewrite Ein in Hb.
  - assert (El : get h k = get h' k).
    { destruct Rt' as (_ & R). specialize (R k Lk). rewrite Ek in R. inversion R; congruence. }
    rewrite Ek in El. intros j Hj. apply Bd. apply Vin. exists k. split; auto. unfold polynomial_layers. rewrite El. apply in_map_iff. eauto.
Qed.

(** A HighOrderMLP of refinable layers, whatever its weights were: after initialisation each of its layers is a sum of
    bounded straight lines, each of its switch layers a product of two such sums; the objects that existed before the
    network, the activation among them, are unchanged. *)
Theorem C76_mlp_layers : forall g a h0 h1 h net ni nh no si sh so ms mo sc ra rb,
  wf_heap h0 -> plain_mlp a ni nh no si sh so -> activation_in h0 a -> (2 <= ni)%nat -> (2 <= nh)%nat -> (2 <= no)%nat ->
  0 <= ms -> 0 <= mo -> (forall i, 0 <= sc i) -> (forall k o i, 0 <= ra k o i < 1) -> (forall k o i, 0 <= rb k o i < 1) ->
  HighOrderMLP g a h0 = Ok (net, h1) -> retrained h1 h ->
  exists h', initialize_network_polynomial_layers net ms mo sc ra rb h = (h', None) /\ retrained h h' /\
    network_layers h' net = network_layers h net /\ length (network_layers h' net) = (ma_hidden_layers a + 2)%nat /\
    (forall k, (k < length h0)%nat -> get h' k = get h k) /\
    forall k, In k (network_layers h' net) ->
      match get h' k with
      | OPiecewise l => bounded_lines l (ms * sc (pw_in l)) mo
      | OSwitch i _ ls _ => forall j, In j ls -> exists l, get h' j = OPiecewise l /\ bounded_lines l (ms * sc i) mo
      | _ => False
      end.
Proof.
  intros g a h0 h1 h net ni nh no si sh so ms mo sc ra rb W P A Hi Hh Ho Hms Hmo Hsc Hra Hrb E Rt.
  destruct (mlp_initialised g a h0 h1 h net ni nh no si sh so ms mo sc ra rb W P A Hi Hh Ho Hms Hmo Hsc Hra Hrb E Rt)
    as (h' & nl & dl & k1 & k2 & m & L & Eh & Rt' & Wf & Ln & G & Lm & Q & B & Ld & Gd & Low & V).
  exists h'. split; auto. split; auto.
  assert (Nt : network_layers h' net = filter (fun k => is_layer (get h' k)) L).
  { unfold network_layers, model_of. now rewrite G, Q. }
  assert (Len : length h' = length h) by apply Rt'.
  split; [|split; [|split; [exact Low|]]].
  - assert (Same : forall k o, get h' k = o -> (k < length h)%nat -> match o with OSequential _ | OMLP _ _ _ _ => True | _ => False end -> get h k = o).
    { intros k o Ek Lk Ho'. destruct Rt' as (_ & R). specialize (R k Lk). rewrite Ek in R. destruct o; try contradiction; inversion R; congruence. }
    rewrite Nt. unfold network_layers, model_of. rewrite (Same net _ G), (Same m _ Q) by (auto; lia).
    apply filter_ext_in. intros k Hk. assert (Lk : (k < length h)%nat) by (rewrite <- Len; eapply built_lt; eauto).
    destruct Rt' as (_ & R). specialize (R k Lk). inversion R; reflexivity.
  - rewrite Nt. 
    assert (Cnt : length (filter (fun k => is_layer (get h' k)) L) =
                  length (filter (fun s => match s with SP _ | SSw _ => true | _ => false end) (mlp_slots a ni nh no si sh so))).
    { pose proof (b_desc _ _ _ _ _ _ B) as D. clear -D. induction D as [|k s L Sl (_ & Dk) D IH]; [reflexivity|]. cbn [filter].
      destruct s; [destruct Dk as (l & -> & _)|destruct Dk as (? & ? & ? & -> & _)|destruct Dk as (? & ->)|destruct Dk as (_ & ? & ? & ->)..];
        cbn [is_layer length]; auto. }
    rewrite Cnt. clear. unfold mlp_slots.
    set (p := fun s => match s with SP _ | SSw _ => true | _ => false end).
    assert (One : forall lt n I O s per, filter p [layer_slot lt n I O s per] = [layer_slot lt n I O s per]).
    { intros. cbn [filter]. replace (p (layer_slot lt n I O s per)) with true; [reflexivity|].
      unfold layer_slot. repeat match goal with |- context [if String.eqb ?x ?y then _ else _] => destruct (String.eqb x y) end; reflexivity. }
    assert (Bt : filter p (between_slots (ma_normalization a) (ma_non_linearity a)) = []).
    { unfold between_slots. destruct (ma_normalization a) as [[f ps]|], (ma_non_linearity a); reflexivity. }
    assert (Dr : filter p (drop_slots a) = []) by (unfold drop_slots; destruct Rlt_dec; reflexivity).
    rewrite !filter_app, !One, Bt, Dr. cbn [app].
    assert (Hd : length (filter p (concat (repeat (hidden_slots a nh sh) (ma_hidden_layers a)))) = ma_hidden_layers a).
    { induction (ma_hidden_layers a) as [|n IH]; [reflexivity|]. cbn [repeat concat]. rewrite filter_app, app_length, IH.
      unfold hidden_slots. rewrite !filter_app, One, Bt, Dr. reflexivity. }
    cbn [length]. rewrite app_length, Hd. cbn. lia.
  - rewrite Nt. intros k Hk. apply filter_In in Hk. destruct Hk as (Hk & Il). specialize (V k Hk).
    destruct (built_slot _ _ _ _ _ _ k B Hk) as (s & _ & _ & D).
    destruct s; [destruct D as (l & El & _)|destruct D as (? & ? & ? & El & _)|destruct D as (? & El)|destruct D as (_ & ? & ? & El)..];
      rewrite El in *; try discriminate; exact V.
Qed.
Print Assumptions C76_mlp_layers.

(** *** Composition *)
Inductive via (T : slot -> nat -> nat -> Prop) : nat -> list slot -> nat -> Prop :=
| via_nil W : via T W [] W
| via_cons W W1 W2 s Sl : T s W W1 -> via T W1 Sl W2 -> via T W (s :: Sl) W2.
Lemma via_app (T : slot -> nat -> nat -> Prop) W W1 W2 Sl Sl' : via T W Sl W1 -> via T W1 Sl' W2 -> via T W (Sl ++ Sl') W2.
Proof. induction 1; auto. intros H'. econstructor; eauto. Qed.
Lemma via_one (T : slot -> nat -> nat -> Prop) W W1 s : T s W W1 -> via T W [s] W1.
Proof. intros H. econstructor; [exact H|constructor]. Qed.
Lemma mlp_via (T : slot -> nat -> nat -> Prop) a ni nh no si sh so :
  T (layer_slot (or_string (ma_layer_type_in a) (ma_layer_type a)) ni (ma_in_width a) (ma_hidden_width a) si (ma_periodicity a)) (ma_in_width a) (ma_hidden_width a) ->
  T (layer_slot (ma_layer_type a) nh (ma_hidden_width a) (ma_hidden_width a) sh (ma_periodicity a)) (ma_hidden_width a) (ma_hidden_width a) ->
  T (layer_slot (ma_layer_type a) no (ma_hidden_width a) (ma_out_width a) so (ma_periodicity a)) (ma_hidden_width a) (ma_out_width a) ->
  (forall f ps, ma_normalization a = Some (f, ps) -> T (SM f) (ma_hidden_width a) (ma_hidden_width a)) ->
  (forall k, ma_non_linearity a = Some k -> T SNl (ma_hidden_width a) (ma_hidden_width a)) -> T SDrop (ma_hidden_width a) (ma_hidden_width a) ->
  via T (ma_in_width a) (mlp_slots a ni nh no si sh so) (ma_out_width a).
Proof.
  intros P1 P2 P3 Pm Pn Pd. set (H := ma_hidden_width a) in *.
  assert (Bt : via T H (between_slots (ma_normalization a) (ma_non_linearity a)) H).
  { unfold between_slots. apply via_app with H.
    - destruct (ma_normalization a) as [[f ps]|]; [|constructor]. apply via_one. eauto.
    - destruct (ma_non_linearity a); [|constructor]. apply via_one. eauto. }
  assert (Dr : via T H (drop_slots a) H) by (unfold drop_slots; destruct Rlt_dec; [now apply via_one|constructor]).
  assert (Hd : via T H (concat (repeat (hidden_slots a nh sh) (ma_hidden_layers a))) H).
  { induction (ma_hidden_layers a) as [|n IH]; [constructor|]. cbn [repeat concat]. apply via_app with H; [|exact IH].
    unfold hidden_slots. apply via_app with H; [exact Bt|]. apply via_app with H; [exact Dr|now apply via_one]. }
  unfold mlp_slots. apply via_app with H; [now apply via_one|]. apply via_app with H; [exact Hd|].
  apply via_app with H; [exact Bt|]. apply via_app with H; [exact Dr|now apply via_one].
Qed.

Section Chain.
Variable Rl : nat -> nat -> (tensor R -> res (tensor R)) -> Prop.
Hypotheses (Rid : forall W, Rl W W (fun x => Ok x))
  (Rcomp : forall W W1 W2 f g, Rl W W1 f -> Rl W1 W2 g -> Rl W W2 (fun x => y <- f x ;; g y))
  (Rext : forall W W' f g, (forall x, f x = g x) -> Rl W W' f -> Rl W W' g).
Inductive links (c : nat -> tensor R -> res (tensor R)) : nat -> list nat -> nat -> Prop :=
| ln_nil W : links c W [] W
| ln_cons W W1 W2 k L : Rl W W1 (c k) -> links c W1 L W2 -> links c W (k :: L) W2.
Lemma links_run c W L W' : links c W L W' -> Rl W W' (run c L).
Proof.
  induction 1 as [W|W W1 W2 k L S _ IH].
  - apply (Rext W W (fun x => Ok x)); auto.
  - apply (Rext W W2 (fun x => y <- c k x ;; run c L y)); [reflexivity|]. eapply Rcomp; eauto.
Qed.

Lemma mlp_links (T : slot -> nat -> nat -> Prop) h net dl k1 k2 m nl base L Sl W W' : wf_heap h -> (net < length h)%nat -> get h net = OMLP dl k1 k2 m ->
  (m < length h)%nat -> get h m = OSequential L -> built base nl dl h L Sl -> via T W Sl W' ->
  (forall k s W W1, In k L -> describes nl dl h k s -> T s W W1 -> Rl W W1 (call h k)) ->
  Rl W W' (call h net).
Proof.
  intros Wf Ln G Lm Q B Io V.
  apply (Rext W W' (run (call h) L)).
  { intros x. rewrite (call_unfold h net), G by auto. cbn [obj_forward]. rewrite (call_unfold h m), Q by auto. reflexivity. }
  apply links_run. pose proof (b_desc _ _ _ _ _ _ B) as D. clear B Q G. revert W Io V.
  induction D as [|k s L Sl Dk D IH]; intros W Io V; inversion Io as [|? W1 ? ? ? Io0 Io1]; subst; [constructor|].
  econstructor.
  - eapply V; eauto; now left.
  - apply (IH W1 Io1). intros k' s' A A' Hk. apply V; now right.
Qed.
End Chain.

Lemma rowwise_affine_id W : rowwise_affine W W (fun x => Ok x).
Proof.
  exists (fun o i => if Nat.eqb i o then 1 else 0), (fun _ => 0). intros x B Hx. exists x. split; auto. split; auto.
  intros b o Hb Ho. rewrite (rsum_single W o) by (auto; intros i _ D; apply Nat.eqb_neq in D; rewrite D; lra).
  rewrite Nat.eqb_refl. lra.
Qed.
Lemma rowwise_affine_comp W W1 W2 f g : rowwise_affine W W1 f -> rowwise_affine W1 W2 g -> rowwise_affine W W2 (fun x => y <- f x ;; g y).
Proof.
  intros (M & c & F) (N & d & G).
  exists (fun o i => rsum W1 (fun j => N o j * M j i)), (fun o => rsum W1 (fun j => N o j * c j) + d o).
  intros x B Hx. destruct (F x B Hx) as (y & Ey & Sy & Vy). destruct (G y B Sy) as (z & Ez & Sz & Vz).
  exists z. rewrite Ey. cbn [rbind]. split; auto. split; auto. intros b o Hb Ho. rewrite Vz by auto.
  rewrite (rsum_ext W1 _ (fun j => rsum W (fun i => N o j * M j i * at_ x [b; i]) + N o j * c j)).
  2:{ intros j Hj. rewrite Vy by auto. rewrite Rmult_plus_distr_l, <- rsum_scal. f_equal. apply rsum_ext. intros; ring. }
  rewrite rsum_plus, rsum_swap, Rplus_assoc. f_equal. apply rsum_ext. intros i Hi. now rewrite rsum_scal_r.
Qed.
Lemma rowwise_affine_ext W W' f g : (forall x, f x = g x) -> rowwise_affine W W' f -> rowwise_affine W W' g.
Proof. intros E (M & c & F). exists M, c. intros x B Hx. rewrite <- E. auto. Qed.

Lemma straight_sum l a b : held l -> sum_class (pw_cls l) -> straight_links l a b -> forall v o, (o < pw_out l)%nat ->
  layer_out l v o = rsum (pw_in l) (fun i => a o i * apply_periodicity (pw_periodicity l) (v i) + b o i).
Proof.
  intros H Hc S v o Ho. rewrite layer_out_sum by auto. apply rsum_ext. intros i Hi. rewrite <- one_link_link by auto. now apply S.
Qed.
Lemma straight_affine h k l a b : wf_heap h -> get h k = OPiecewise l -> held l -> sum_class (pw_cls l) -> pw_periodicity l = None ->
  straight_links l a b -> rowwise_affine (pw_in l) (pw_out l) (call h k).
Proof.
  intros Wf E H Hc Hp S. exists a, (fun o => rsum (pw_in l) (b o)). intros x B Hx. pose proof (get_pw_lt _ _ _ E) as Lk.
  rewrite call_unfold, E by auto. cbn [obj_forward]. destruct (forward_rows l x B H Hx) as (y & Ey & Sy & Vy). exists y. split; auto. split; auto.
  intros r o Hr Ho. rewrite Vy by auto. rewrite (straight_sum l a b) by auto. rewrite Hp. cbn [apply_periodicity]. rewrite rsum_plus. reflexivity.
Qed.

(** With plain layers, no periodicity and no modules between them, the initialised network is an affine map of each
    sample, whatever the numbers of nodes and segments. *)
Theorem C76_initialised_mlp_affine : forall g a h0 h1 h net ni nh no si sh so ms mo sc ra rb,
  wf_heap h0 -> plain_mlp a ni nh no si sh so -> (2 <= ni)%nat -> (2 <= nh)%nat -> (2 <= no)%nat ->
  (forall t, t = ma_layer_type a \/ t = or_string (ma_layer_type_in a) (ma_layer_type a) ->
     t = "continuous"%string \/ t = "discontinuous"%string) ->
  ma_periodicity a = None -> ma_normalization a = None -> ma_non_linearity a = None ->
  0 <= ms -> 0 <= mo -> (forall i, 0 <= sc i) -> (forall k o i, 0 <= ra k o i < 1) -> (forall k o i, 0 <= rb k o i < 1) ->
  HighOrderMLP g a h0 = Ok (net, h1) -> retrained h1 h ->
  exists h', initialize_network_polynomial_layers net ms mo sc ra rb h = (h', None) /\
    rowwise_affine (ma_in_width a) (ma_out_width a) (call h' net).
Proof.
  intros g a h0 h1 h net ni nh no si sh so ms mo sc ra rb W P Hi Hh Ho T Hper Hnm Hnl Hms Hmo Hsc Hra Hrb E Rt.
  assert (A : activation_in h0 a) by (intros k Ek; congruence).
  destruct (mlp_initialised g a h0 h1 h net ni nh no si sh so ms mo sc ra rb W P A Hi Hh Ho Hms Hmo Hsc Hra Hrb E Rt)
    as (h' & nl & dl & k1 & k2 & m & L & Eh & Rt' & Wf & Ln & G & Lm & Q & B & Ld & Gd & Low & V).
  exists h'. split; auto.
  apply (mlp_links rowwise_affine rowwise_affine_id rowwise_affine_comp rowwise_affine_ext
           (fun s W W1 => match s with SP c => sum_class (c_cls c) /\ c_per c = None /\ c_in c = W /\ c_out c = W1 | SDrop => W1 = W | _ => False end)
           h' net dl k1 k2 m nl (length h0) L (mlp_slots a ni nh no si sh so)); auto.
  { assert (Ly : forall t n I O s, t = ma_layer_type a \/ t = or_string (ma_layer_type_in a) (ma_layer_type a) ->
      match layer_slot t n I O s (ma_periodicity a) with SP c => sum_class (c_cls c) /\ c_per c = None /\ c_in c = I /\ c_out c = O | SDrop => O = I | _ => False end).
    { intros t n I O s Ht. rewrite Hper. destruct (T t Ht) as [->| ->]; cbn; repeat split; auto; [now left|now right]. }
    apply mlp_via; try (apply Ly; now auto); try (intros; congruence). }
  intros k s W0 W1 Hk D Io. specialize (V k Hk). destruct D as (Lk & D).
  destruct s as [c|cs|f| |]; try contradiction.
  - destruct Io as (Sc & Sp & <- & <-), D as (l & El & Hl & <-). cbn [cfg_of c_cls c_per c_in c_out] in *.
    rewrite El in V. destruct V as (sa & sb & St & _). eapply straight_affine; eauto.
  - subst W1. destruct D as (-> & _).
    apply (rowwise_affine_ext _ _ (fun x => Ok x)); [|apply rowwise_affine_id]. intros x. now rewrite call_unfold, Gd by auto.
Qed.
Print Assumptions C76_initialised_mlp_affine.

(** ** Continuity of networks *)
Lemma min_radius W' : forall P : nat -> R -> Prop, (forall o d d', P o d -> 0 < d' <= d -> P o d') ->
  (forall o, (o < W')%nat -> exists d, 0 < d /\ P o d) -> exists d, 0 < d /\ forall o, (o < W')%nat -> P o d.
Proof.
  induction W' as [|n IH]; intros P Mono H.
  - exists 1. split; [lra|]. intros; lia.
  - destruct (IH P Mono) as (d & Hd & Pd); [intros; apply H; lia|]. destruct (H n) as (d' & Hd' & Pd'); [lia|].
    exists (Rmin d d'). pose proof (Rmin_l d d'). pose proof (Rmin_r d d').
    assert (0 < Rmin d d') by (apply Rmin_pos; auto). split; auto. intros o Ho.
    destruct (Nat.eq_dec o n) as [->|]; [apply (Mono n d')|apply (Mono o d)]; auto. apply Pd. lia.
Qed.
Lemma continuous_vec_comp W W' (F : (nat -> R) -> nat -> R) (G : (nat -> R) -> R) :
  (forall o, (o < W')%nat -> continuous_vec W (fun v => F v o)) -> continuous_vec W' G -> continuous_vec W (fun v => G (F v)).
Proof.
  intros HF HG x eps He. destruct (HG (F x) eps He) as (dl & Hdl & HG').
  destruct (min_radius W' (fun o d => forall y, (forall i, (i < W)%nat -> Rabs (y i - x i) < d) -> Rabs (F y o - F x o) < dl)) as (d & Hd & V).
  - intros o d d' H Hd y Hy. apply H. intros i Hi. specialize (Hy i Hi). lra.
  - intros o Ho. destruct (HF o Ho x dl Hdl) as (d & Hd & V). exists d. split; auto.
  - exists d. split; [exact Hd|]. intros y Hy. apply HG'. intros o Ho. now apply V.
Qed.
Lemma continuous_vec_local n f v w : continuous_vec n f -> (forall i, (i < n)%nat -> v i = w i) -> f v = f w.
Proof.
  intros C E. destruct (Req_dec (f v) (f w)) as [|D]; auto. exfalso.
  destruct (C w (Rabs (f v - f w))) as (d & Hd & V); [apply Rabs_pos_lt; lra|].
  specialize (V v). assert (Rabs (f v - f w) < Rabs (f v - f w)); [|lra]. apply V. intros i Hi. rewrite E by auto.
  replace (w i - w i) with 0 by ring. rewrite Rabs_R0. exact Hd.
Qed.
Lemma rowwise_continuous_id W : rowwise_continuous W W (fun x => Ok x).
Proof.
  exists (fun v o => v o). split.
  - intros o Ho. apply (continuous_vec_coord W o (fun t => t)); auto. apply derivable_continuous, derivable_id.
  - intros x B Hx. exists x. auto.
Qed.
Lemma rowwise_continuous_comp W W1 W2 f g : rowwise_continuous W W1 f -> rowwise_continuous W1 W2 g ->
  rowwise_continuous W W2 (fun x => y <- f x ;; g y).
Proof.
  intros (F & CF & VF) (G & CG & VG). exists (fun v => G (F v)). split.
  - intros o Ho. apply (continuous_vec_comp W W1 F (fun v => G v o)); auto.
  - intros x B Hx. destruct (VF x B Hx) as (y & Ey & Sy & Vy). destruct (VG y B Sy) as (z & Ez & Sz & Vz).
    exists z. rewrite Ey. cbn [rbind]. split; auto. split; auto. intros b o Hb Ho. rewrite Vz by auto.
    apply (continuous_vec_local W1 (fun v => G v o)); auto. intros i Hi. unfold row at 1. now apply Vy.
Qed.
Lemma rowwise_continuous_ext W W' f g : (forall x, f x = g x) -> rowwise_continuous W W' f -> rowwise_continuous W W' g.
Proof. intros E (F & C & V). exists F. split; auto. intros x B Hx. rewrite <- E. auto. Qed.

Definition continuous_layer (l : piecewise) : Prop := forall o, (o < pw_out l)%nat -> continuous_vec (pw_in l) (fun v => layer_out l v o).
Lemma continuous_call h k l : wf_heap h -> get h k = OPiecewise l -> held l -> continuous_layer l ->
  rowwise_continuous (pw_in l) (pw_out l) (call h k).
Proof.
  intros Wf E H C. exists (fun v o => layer_out l v o). split; auto. intros x B Hx. pose proof (get_pw_lt _ _ _ E) as Lk.
  rewrite call_unfold, E by auto. cbn [obj_forward]. destruct (forward_rows l x B H Hx) as (y & Ey & Sy & Vy). exists y. auto.
Qed.

(** A switch layer multiplies the outputs of its branches. *)
Lemma times_all_continuous B W' ys : forall f, shape f = [B; W'] -> Forall (fun y => shape y = [B; W']) ys ->
  exists z, times_all f ys = Ok z /\ shape z = [B; W'] /\
    forall b o, (b < B)%nat -> (o < W')%nat -> at_ z [b; o] = fold_left Rmult (map (fun y => at_ y [b; o]) ys) (at_ f [b; o]).
Proof.
  induction ys as [|y ys IH]; intros f Hf Hy; cbn [times_all].
  - exists f. auto.
  - inversion Hy; subst. destruct (times_same f y B W') as (z & Ez & Sz & Vz); auto. rewrite Ez. cbn [rbind].
    destruct (IH z Sz) as (u & Eu & Su & Vu); auto. exists u. split; auto. split; auto. intros b o Hb Ho. rewrite Vu, Vz by auto. reflexivity.
Qed.
Lemma all_outputs_continuous c W W' ls : Forall (fun k => rowwise_continuous W W' (c k)) ls ->
  exists Fs : list ((nat -> R) -> nat -> R),
    Forall (fun F => forall o, (o < W')%nat -> continuous_vec W (fun v => F v o)) Fs /\ length Fs = length ls /\
    forall x B, shape x = [B; W] -> exists ys, all_outputs c ls x = Ok ys /\ Forall (fun y => shape y = [B; W']) ys /\
      forall b o, (b < B)%nat -> (o < W')%nat -> map (fun y => at_ y [b; o]) ys = map (fun F => F (row x b) o) Fs.
Proof.
  induction 1 as [|k ls (F & CF & VF) _ (Fs & C & E & V)].
  - exists []. split; [constructor|]. split; auto. intros x B Hx. exists []. repeat split; auto.
  - exists (F :: Fs). split; [constructor; auto|]. split; [cbn; congruence|]. intros x B Hx.
    destruct (VF x B Hx) as (y & Ey & Sy & Vy). destruct (V x B Hx) as (ys & Eys & Sys & Vys).
    exists (y :: ys). cbn [all_outputs]. rewrite Ey. cbn [rbind]. rewrite Eys. cbn [rbind]. split; auto. split; [constructor; auto|].
    intros b o Hb Ho. cbn [map]. rewrite Vy, Vys by auto. reflexivity.
Qed.
Lemma continuous_vec_fold W (o : nat) (Fs : list ((nat -> R) -> nat -> R)) : forall G, continuous_vec W G ->
  Forall (fun F => continuous_vec W (fun v => F v o)) Fs -> continuous_vec W (fun v => fold_left Rmult (map (fun F => F v o) Fs) (G v)).
Proof.
  induction Fs as [|F Fs IH]; intros G CG CF; [exact CG|]. inversion CF; subst. cbn [map fold_left].
  apply (IH (fun v => G v * F v o)); auto. now apply continuous_vec_mult.
Qed.
Lemma switch_continuous c W W' I O ls : ls <> [] -> Forall (fun k => rowwise_continuous W W' (c k)) ls ->
  rowwise_continuous W W' (obj_forward c (OSwitch I O ls None)).
Proof.
  intros Hls H. destruct (all_outputs_continuous c W W' ls H) as (Fs & C & E & V).
  destruct Fs as [|F0 Fs]; [destruct ls; [now destruct Hls|discriminate]|]. inversion C as [|? ? C0 C']; subst.
  exists (fun v o => fold_left Rmult (map (fun F => F v o) Fs) (F0 v o)). split.
  - intros o Ho. apply (continuous_vec_fold W o Fs (fun v => F0 v o)); auto.
    eapply Forall_impl; [|exact C']. cbn. intros F HF. now apply HF.
  - intros x B Hx. destruct (V x B Hx) as (ys & Eys & Sys & Vys). cbn [obj_forward]. rewrite Eys. cbn [rbind].
    assert (Ly : exists y ys', ys = y :: ys').
    { destruct ys as [|y ys']; [|eauto]. exfalso.
      destruct ls as [|k ls]; [now destruct Hls|]. cbn [all_outputs] in Eys. destruct (c k x); cbn in Eys; [|discriminate].
      destruct (all_outputs c ls x); discriminate. }
    destruct Ly as (y & ys' & ->). inversion Sys as [|? ? Sy Sys']; subst. cbn [product_outputs].
    destruct (times_all_continuous B W' ys' y Sy Sys') as (z & Ez & Sz & Vz). rewrite Ez. cbn [rbind]. exists z. split; auto. split; auto.
    intros b o Hb Ho. rewrite Vz by auto. specialize (Vys b o Hb Ho). cbn [map] in Vys. injection Vys as -> ->. reflexivity.
Qed.

Lemma mlp_continuous h net dl k1 k2 m nl base a L ni nh no si sh so : wf_heap h -> (net < length h)%nat -> get h net = OMLP dl k1 k2 m ->
  (m < length h)%nat -> get h m = OSequential L -> built base nl dl h L (mlp_slots a ni nh no si sh so) ->
  plain_mlp a ni nh no si sh so ->
  (forall f ps, ma_normalization a = Some (f, ps) -> rowwise_continuous (ma_hidden_width a) (ma_hidden_width a) f) ->
  (forall k, ma_non_linearity a = Some k -> nl = k /\ exists f ps, get h k = OModule f ps /\ rowwise_continuous (ma_hidden_width a) (ma_hidden_width a) f) ->
  (dl < length h)%nat -> get h dl = OModule (fun x => Ok x) [] ->
  (forall k l, In k (flat_map (leaves h) L) -> get h k = OPiecewise l -> continuous_layer l) ->
  rowwise_continuous (ma_in_width a) (ma_out_width a) (call h net).
Proof.
  intros Wf Ln G Lm Q B P Hnm Hnl Ld Gd V. set (H := ma_hidden_width a) in *.
  set (T := fun s W W1 => match s with
     | SP c => c_in c = W /\ c_out c = W1
     | SSw cs => cs <> [] /\ Forall (fun c => c_in c = W /\ c_out c = W1) cs
     | SM f => rowwise_continuous W W1 f
     | SNl => W = H /\ W1 = H /\ exists k, ma_non_linearity a = Some k
     | SDrop => W1 = W end).
  apply (mlp_links rowwise_continuous rowwise_continuous_id rowwise_continuous_comp rowwise_continuous_ext T
           h net dl k1 k2 m nl base L (mlp_slots a ni nh no si sh so)); auto.
  { assert (Ly : forall t n I O s per, refinable_type t -> T (layer_slot t n I O s per) I O).
    { intros t n I O s per Ht. destruct (layer_slot_cases t n I O s per Ht) as [(c & _ & ->)|(c & _ & ->)]; cbn; [auto|].
      split; [discriminate|]. repeat constructor. }
    destruct P. apply mlp_via; try (now apply Ly); cbn; auto; eauto. }
  intros k s W0 W1 Hk (Lk & D) Io.
  destruct s as [c|cs|f| |]; cbn in Io.
  - destruct Io as (<- & <-), D as (l & El & Hl & <-). cbn [cfg_of c_in c_out]. apply continuous_call; auto.
    apply (V k); auto. apply in_flat_map. exists k. split; auto. unfold leaves. rewrite El. now left.
  - destruct D as (I & O & ls & El & F), Io as (Nc & Io). assert (Nls : ls <> []) by (intros ->; inversion F; subst; auto).
    apply (rowwise_continuous_ext _ _ (obj_forward (call h) (OSwitch I O ls None))).
    { intros x. now rewrite (call_unfold h k), El by auto. }
    apply switch_continuous; auto.
    assert (Vl : forall j l, In j ls -> get h j = OPiecewise l -> continuous_layer l).
    { intros j l Hj. apply V. apply in_flat_map. exists k. split; auto. unfold leaves. now rewrite El. }
    clear El Nc Nls. induction F as [|j c ls cs (l & Ej & Hl & <-) F IH]; [constructor|]. inversion Io as [|? ? (Ci & Co) Io']; subst.
    constructor.
    + apply continuous_call; auto. apply (Vl j); auto. now left.
    + apply IH; auto. intros j' l' Hj'. apply Vl. now right.
  - destruct D as (ps & El). apply (rowwise_continuous_ext _ _ f); auto. intros x. now rewrite (call_unfold h k), El by auto.
  - destruct Io as (-> & -> & k' & Ek'), D as (-> & _). destruct (Hnl k' Ek') as (-> & f & ps & El & Cf).
    apply (rowwise_continuous_ext _ _ f); auto. intros x. now rewrite (call_unfold h k'), El by auto.
  - destruct D as (-> & _). subst W1. apply (rowwise_continuous_ext _ _ (fun x => Ok x)); [|apply rowwise_continuous_id].
    intros x. now rewrite (call_unfold h dl), Gd by auto.
Qed.

(** ** C78: networks of continuous layers are continuous functions *)
Theorem C78_mlp_continuous : forall g a h0 h1 h net ni nh no si sh so,
  wf_heap h0 -> plain_mlp a ni nh no si sh so ->
  (forall t, t = ma_layer_type a \/ t = or_string (ma_layer_type_in a) (ma_layer_type a) ->
     t = "continuous"%string \/ t = "switch_continuous"%string) ->
  (forall p, ma_periodicity a = Some p -> 0 < p) ->
  (forall f ps, ma_normalization a = Some (f, ps) -> rowwise_continuous (ma_hidden_width a) (ma_hidden_width a) f) ->
  (forall k, ma_non_linearity a = Some k -> (k < length h0)%nat /\
     exists f ps, get h0 k = OModule f ps /\ rowwise_continuous (ma_hidden_width a) (ma_hidden_width a) f) ->
  HighOrderMLP g a h0 = Ok (net, h1) -> retrained h1 h ->
  rowwise_continuous (ma_in_width a) (ma_out_width a) (call h net).
Proof.
  intros g a h0 h1 h net ni nh no si sh so W P T Hper Hnm Hnl E Rt.
  assert (A : activation_in h0 a) by (intros k Ek; destruct (Hnl k Ek) as (Lk & f & ps & Gk & _); eauto).
  destruct (mlp_view g a h0 h1 h net ni nh no si sh so W P A E Rt) as (nl & dl & k1 & k2 & m & L & Wf & Ln & G & Lm & Q & B & Ld & Gd & I1 & I2 & N & Lh0).
  apply (mlp_continuous h net dl k1 k2 m nl (length h0) a L ni nh no si sh so); auto.
  { intros k Ek. destruct (N k Ek) as (-> & Lk & ->). split; auto. now apply Hnl. }
  assert (Ok : Forall (fun s => match s with SP c => c_cls c = PiecewisePolynomial /\ c_len c = 2 /\ (forall p, c_per c = Some p -> 0 < p)
      | SSw cs => Forall (fun c => c_cls c = PiecewisePolynomial /\ c_len c = 2 /\ (forall p, c_per c = Some p -> 0 < p)) cs
      | _ => True end) (mlp_slots a ni nh no si sh so)).
  { assert (Ly : forall t n I O s, t = ma_layer_type a \/ t = or_string (ma_layer_type_in a) (ma_layer_type a) ->
      match layer_slot t n I O s (ma_periodicity a) with
      | SP c => c_cls c = PiecewisePolynomial /\ c_len c = 2 /\ (forall p, c_per c = Some p -> 0 < p)
      | SSw cs => Forall (fun c => c_cls c = PiecewisePolynomial /\ c_len c = 2 /\ (forall p, c_per c = Some p -> 0 < p)) cs
      | _ => True end).
    { intros t n I O s Ht. destruct (T t Ht) as [->| ->]; cbn; [auto|].
      repeat (apply Forall_cons; [repeat split; auto; discriminate|]). constructor. }
    apply mlp_slots_all; try (apply Ly; now auto); auto. }
  intros k l Hk El o Ho. apply in_flat_map in Hk. destruct Hk as (j & Hj & Hk). destruct (built_slot _ _ _ _ _ _ j B Hj) as (s & Hs & _ & D).
  rewrite Forall_forall in Ok. specialize (Ok s Hs). unfold leaves in Hk.
  assert (K : held l /\ pw_cls l = PiecewisePolynomial /\ pw_length l = 2 /\ (forall p, pw_periodicity l = Some p -> 0 < p)).
  { destruct s as [c|cs|f| |].
    - destruct D as (l' & Ej & Hl & <-). rewrite Ej in Hk. destruct Hk as [<-|[]]. rewrite El in Ej. injection Ej as <-. cbn in Ok. tauto.
    - destruct D as (I & O & ls & Ej & F). rewrite Ej in Hk. clear Ej Hs. induction F as [|q c ls cs Pq F IH]; [destruct Hk|].
      inversion Ok as [|? ? Ok0 Ok1]; subst. destruct Hk as [<-|Hk]; [|now apply IH].
      destruct Pq as (l' & Eq & Hl & <-). rewrite El in Eq. injection Eq as <-. cbn in Ok0. tauto.
    - destruct D as (ps & Ej). rewrite Ej in Hk. destruct Hk.
    - destruct D as (_ & f & ps & Ej). rewrite Ej in Hk. destruct Hk.
    - destruct D as (_ & f & ps & Ej). rewrite Ej in Hk. destruct Hk. }
  destruct K as (K1 & K2 & K3 & K4). apply C08_continuous_everywhere; auto. rewrite K2. now left.
Qed.
Print Assumptions C78_mlp_continuous.

(** ** C77: smoothing *)
Lemma smooth_one factor k h l : get h k = OPiecewise l -> held l -> discontinuous_class (pw_cls l) -> (2 <= pw_n l)%nat ->
  exists w', smooth_discontinuous_layer l factor = (w', None) /\ shape w' = shape (pw_w l) /\
    smooth_visit factor k h = (set_obj h k (OPiecewise (with_w l w')), None).
Proof.
  intros E H Hc Hn. destruct (smooth_spec l factor H Hc Hn) as (w' & Ew & Sh & _). exists w'. split; auto. split; auto.
  unfold smooth_visit. now rewrite E, Ew.
Qed.
Lemma smooth_run factor Ks : forall h, NoDup Ks ->
  (forall k, In k Ks -> exists l, get h k = OPiecewise l /\ held l /\ discontinuous_class (pw_cls l) /\ (2 <= pw_n l)%nat) ->
  exists h', mfold (smooth_visit factor) Ks h = (h', None) /\ length h' = length h /\
    (forall k, ~ In k Ks -> get h' k = get h k) /\
    forall k l, In k Ks -> get h k = OPiecewise l ->
      exists w', smooth_discontinuous_layer l factor = (w', None) /\ shape w' = shape (pw_w l) /\ get h' k = OPiecewise (with_w l w').
Proof.
  induction Ks as [|k Ks IH]; intros h N H; cbn [mfold].
  { exists h. repeat split; auto. intros k l []. }
  inversion N as [|? ? Nk NT]; subst. destruct (H k (or_introl eq_refl)) as (l & El & Hl & Hc & Hn).
  destruct (smooth_one factor k h l El Hl Hc Hn) as (w' & Ew & Sh & Es). rewrite Es. pose proof (get_pw_lt _ _ _ El) as Lk.
  set (h1 := set_obj h k (OPiecewise (with_w l w'))) in *.
  assert (O1 : forall j, j <> k -> get h1 j = get h j) by (intros j Hj; apply get_set_other; auto).
  destruct (IH h1 NT) as (h' & E' & L' & O' & V').
  { intros j Hj. rewrite O1 by (intros ->; contradiction). apply H. now right. }
  exists h'. split; auto. split; [rewrite L'; now apply set_obj_length|]. split.
  - intros j Hj. rewrite O' by (intros C; apply Hj; now right). apply O1. intros ->. apply Hj. now left.
  - intros j l0 [<-|Hj] Ej.
    + rewrite El in Ej. injection Ej as <-. exists w'. split; auto. split; auto. rewrite O' by auto. now apply get_set_same.
    + apply V'; auto. rewrite O1; auto. intros ->. contradiction.
Qed.

(** Whatever the network: each discontinuous layer among the modules of its [model] is smoothed once by
    [smooth_discontinuous_layer], and nothing else changes; the branches of switch layers are not modules. *)
Theorem C77_network_smoothing : forall h net m factor,
  model_of h net = Ok m -> NoDup (modules h m) ->
  (forall k l, In k (modules h m) -> get h k = OPiecewise l -> discontinuous_class (pw_cls l) -> held l /\ (2 <= pw_n l)%nat) ->
  exists h', smooth_discontinuous_network net factor h = (h', None) /\ length h' = length h /\
    (forall k, ~ (exists l, In k (modules h m) /\ get h k = OPiecewise l /\ discontinuous_class (pw_cls l)) -> get h' k = get h k) /\
    forall k l, In k (modules h m) -> get h k = OPiecewise l -> discontinuous_class (pw_cls l) ->
      exists w', smooth_discontinuous_layer l factor = (w', None) /\ shape w' = shape (pw_w l) /\ get h' k = OPiecewise (with_w l w').
Proof.
  intros h net m factor Em N H. unfold smooth_discontinuous_network. rewrite Em. cbn [mbind].
  assert (Dc : forall k, is_discontinuous (get h k) = true <-> exists l, get h k = OPiecewise l /\ discontinuous_class (pw_cls l)).
  { intros k. unfold is_discontinuous. split.
    - destruct (get h k); try discriminate. intros C. exists l. split; auto. apply disc_class. now destruct (is_continuous_class (pw_cls l)).
    - intros (l & -> & Hc). apply disc_class in Hc. now rewrite Hc. }
  destruct (smooth_run factor (filter (fun k => is_discontinuous (get h k)) (modules h m)) h) as (h' & E & L & O & V).
  - now apply NoDup_filter.
  - intros k Hk. apply filter_In in Hk. destruct Hk as (Hk & Hd). apply Dc in Hd. destruct Hd as (l & El & Hc).
    exists l. destruct (H k l Hk El Hc). auto.
  - exists h'. split; auto. split; auto. split.
    + intros k Hk. apply O. intros C. apply filter_In in C. destruct C as (Hin & Hd). apply Dc in Hd. destruct Hd as (l & El & Hc). apply Hk. eauto.
    + intros k l Hk El Hc. apply V; auto. apply filter_In. split; auto. apply Dc. eauto.
Qed.
Print Assumptions C77_network_smoothing.

(** *** HighOrderMLP *)
Lemma mlp_slot_pw a ni nh no si sh so : plain_mlp a ni nh no si sh so -> (2 <= ni)%nat -> (2 <= nh)%nat -> (2 <= no)%nat ->
  Forall (fun s => match s with SP c => good_cfg c /\ c_per c = ma_periodicity a | SSw cs => Forall good_cfg cs | _ => True end) (mlp_slots a ni nh no si sh so).
Proof.
  intros P Hi Hh Ho.
  assert (Ly : forall t n I O s, refinable_type t -> (2 <= n)%nat ->
      match layer_slot t n I O s (ma_periodicity a) with SP c => good_cfg c /\ c_per c = ma_periodicity a | SSw cs => Forall good_cfg cs | _ => True end).
  { intros t n I O s Ht Hn. destruct (layer_slot_cases t n I O s (ma_periodicity a) Ht) as [(c & Hc & ->)|(c & Hc & ->)]; cbn; [repeat split; auto|].
    repeat (apply Forall_cons; [repeat split; auto|]). constructor. }
  destruct P. apply mlp_slots_all; try (now apply Ly); auto.
Qed.

(** After full smoothing (factor 1), a HighOrderMLP of continuous and discontinuous layers is a continuous function of each
    sample, whatever its weights were. *)
Theorem C77_smoothed_mlp_continuous : forall g a h0 h1 h net ni nh no si sh so,
  wf_heap h0 -> plain_mlp a ni nh no si sh so -> (2 <= ni)%nat -> (2 <= nh)%nat -> (2 <= no)%nat ->
  (forall t, t = ma_layer_type a \/ t = or_string (ma_layer_type_in a) (ma_layer_type a) ->
     t = "continuous"%string \/ t = "discontinuous"%string) ->
  (forall p, ma_periodicity a = Some p -> 0 < p) ->
  (forall f ps, ma_normalization a = Some (f, ps) -> rowwise_continuous (ma_hidden_width a) (ma_hidden_width a) f) ->
  (forall k, ma_non_linearity a = Some k -> (k < length h0)%nat /\
     exists f ps, get h0 k = OModule f ps /\ rowwise_continuous (ma_hidden_width a) (ma_hidden_width a) f) ->
  HighOrderMLP g a h0 = Ok (net, h1) -> retrained h1 h ->
  exists h', smooth_discontinuous_network net 1 h = (h', None) /\ retrained h h' /\
    rowwise_continuous (ma_in_width a) (ma_out_width a) (call h' net).
Proof.
  intros g a h0 h1 h net ni nh no si sh so W P Hi Hh Ho T Hper Hnm Hnl E Rt.
  assert (A : activation_in h0 a) by (intros k Ek; destruct (Hnl k Ek) as (Lk & f & ps & Gk & _); eauto).
  destruct (mlp_view g a h0 h1 h net ni nh no si sh so W P A E Rt) as (nl & dl & k1 & k2 & m & L & Wf & Ln & G & Lm & Q & B & Ld & Gd & I1 & I2 & N & Lh0).
  pose proof (mlp_model_modules h dl m nl (length h0) L _ Wf Lm Q B) as (_ & Nd & Md).
  pose proof (mlp_slot_pw a ni nh no si sh so P Hi Hh Ho) as Gs. rewrite Forall_forall in Gs.
  assert (Ns : forall k I O ls, In k L -> get h k <> OSwitch I O ls None).
  { assert (Ly : Forall (fun s => match s with SSw _ => False | _ => True end) (mlp_slots a ni nh no si sh so)).
    { assert (Ly : forall t n I O s, t = ma_layer_type a \/ t = or_string (ma_layer_type_in a) (ma_layer_type a) ->
        match layer_slot t n I O s (ma_periodicity a) with SSw _ => False | _ => True end).
      { intros t n I O s Ht. destruct (T t Ht) as [->| ->]; exact Logic.I. }
      apply mlp_slots_all; try (apply Ly; now auto); auto. }
    rewrite Forall_forall in Ly. intros k I O ls Hk Ek. destruct (built_slot _ _ _ _ _ _ k B Hk) as (s & Hs & _ & D). specialize (Ly s Hs).
    destruct s; try contradiction; [destruct D as (l & El & _)|destruct D as (? & El)|destruct D as (_ & ? & ? & El)..]; congruence. }
  assert (Pw : forall k l, In k L -> get h k = OPiecewise l -> held l /\ sum_class (pw_cls l) /\ pw_length l = 2 /\ (2 <= pw_n l)%nat /\
     (forall p, pw_periodicity l = Some p -> 0 < p)).
  { intros k l Hk El. destruct (built_slot _ _ _ _ _ _ k B Hk) as (s & Hs & _ & D). specialize (Gs s Hs).
    destruct s; [destruct D as (l' & El' & Hl & <-)|destruct D as (? & ? & ? & El' & _)|destruct D as (? & El')|destruct D as (_ & ? & ? & El')..]; try congruence.
    rewrite El in El'. injection El' as <-. cbn in Gs. destruct Gs as ((G1 & G2 & G3) & G4). cbn in *. repeat split; auto. intros p Ep. apply Hper. congruence. }
  assert (NotM : forall k l, In k (modules h m) -> get h k = OPiecewise l -> In k L).
  { intros k l Hk El. apply Md in Hk. destruct Hk as [->|Hk]; auto. congruence. }
  destruct (C77_network_smoothing h net m 1) as (h' & Eh & Lh & Un & Vl); auto.
  { unfold model_of. now rewrite G. }
  { intros k l Hk El _. destruct (Pw k l (NotM k l Hk El) El) as (? & ? & ? & ? & _). auto. }
  assert (Dec : forall k, (exists l, In k (modules h m) /\ get h k = OPiecewise l /\ discontinuous_class (pw_cls l)) \/
      ~ exists l, In k (modules h m) /\ get h k = OPiecewise l /\ discontinuous_class (pw_cls l)).
  { intros k. destruct (in_dec Nat.eq_dec k (modules h m)) as [Hk|Hk]; [|right; intros (l & C & _); contradiction].
    destruct (get h k) eqn:El; try (right; intros (l' & _ & C & _); discriminate).
    destruct (is_continuous_class (pw_cls l)) eqn:Ec; [right|left; exists l; repeat split; auto; now apply disc_class].
    intros (l' & _ & C & Hc). injection C as <-. apply disc_class in Hc. congruence. }
  assert (Rt' : retrained h h').
  { split; auto. intros k Hk. destruct (Dec k) as [(l & Hin & El & Hc)|Nk].
    - destruct (Vl k l Hin El Hc) as (w' & _ & Sh & ->). rewrite El. now constructor.
    - rewrite Un by auto. constructor. }
  exists h'. split; auto. split; auto.
  assert (Same : forall k o, get h k = o -> (k < length h)%nat -> match o with OSequential _ | OMLP _ _ _ _ | OModule _ _ => True | _ => False end -> get h' k = o).
  { intros k o Ek Lk Ho'. pose proof (retrained_same h h' k Rt' Lk) as S. rewrite Ek in S. destruct o; try contradiction; exact S. }
  apply (mlp_continuous h' net dl k1 k2 m nl (length h0) a L ni nh no si sh so); rewrite ?Lh; auto; try (now apply Same).
  - now apply (retrained_wf h).
  - now apply (built_retrained _ _ _ h).
  - intros k Ek. destruct (N k Ek) as (-> & Lk & Gk). destruct (Hnl k Ek) as (Lk' & f & ps & Gk' & Cf). split; auto. exists f, ps. split; auto.
    apply Same; auto; [congruence|lia].
  - intros k l' Hk El'.
    assert (KL : In k L /\ (k < length h)%nat).
    { rewrite (flat_leaves_retrained h h') in Hk by (auto; intros j Hj; eapply built_lt; eauto). apply in_flat_map in Hk. destruct Hk as (j & Hj & Hk).
      assert (Lj := built_lt _ _ _ _ _ _ j B Hj). unfold leaves in Hk. destruct (get h j) eqn:Ej; try (now destruct Hk).
      - destruct Hk as [<-|[]]. auto.
      - exfalso. destruct (built_slot _ _ _ _ _ _ j B Hj) as (s & Hs & _ & D).
        destruct s; [destruct D as (l & El & _)|destruct D as (? & ? & ? & El & _)|destruct D as (? & El)|destruct D as (_ & ? & ? & El)..]; rewrite Ej in El; try discriminate.
        injection El as -> -> -> ->. now apply (Ns j _ _ _ Hj) in Ej. }
    destruct KL as (KL & Lk).
    assert (El : exists l, get h k = OPiecewise l).
    { destruct Rt' as (_ & R). specialize (R k Lk). rewrite El' in R. inversion R; eauto. }
    destruct El as (l & El). destruct (Pw k l KL El) as (P1 & P2 & P3 & P4 & P5). intros o Hout.
    destruct (Dec k) as [(l0 & Hin & El0 & Hc)|Nk].
    + rewrite El in El0. injection El0 as <-. destruct (Vl k l Hin El Hc) as (w' & Ew & Sh & G'). rewrite El' in G'. injection G' as ->.
      destruct (C22_full_smoothing_is_continuous l o P1 Hc P4 P3 P5 Hout) as (_ & C). rewrite Ew in C. exact C.
    + rewrite Un in El' by auto. rewrite El in El'. injection El' as <-. apply C08_continuous_everywhere; auto.
      destruct P2 as [P2|P2]; [now left|]. exfalso. apply Nk. exists l. split; [apply Md; auto|]. split; auto. now left.
Qed.
Print Assumptions C77_smoothed_mlp_continuous.

(** The branches of switch layers are not reached: smoothing a network of switch layers does nothing at all. *)
Theorem C77_switch_layers_not_smoothed : forall g a h0 h1 h net ni nh no si sh so factor,
  wf_heap h0 -> plain_mlp a ni nh no si sh so -> activation_in h0 a ->
  (forall t, t = ma_layer_type a \/ t = or_string (ma_layer_type_in a) (ma_layer_type a) ->
     t = "switch_continuous"%string \/ t = "switch_discontinuous"%string) ->
  HighOrderMLP g a h0 = Ok (net, h1) -> retrained h1 h ->
  smooth_discontinuous_network net factor h = (h, None).
Proof.
  intros g a h0 h1 h net ni nh no si sh so factor W P A T E Rt.
  destruct (mlp_view g a h0 h1 h net ni nh no si sh so W P A E Rt) as (nl & dl & k1 & k2 & m & L & Wf & Ln & G & Lm & Q & B & Ld & Gd & I1 & I2 & N & Lh0).
  pose proof (mlp_model_modules h dl m nl (length h0) L _ Wf Lm Q B) as (_ & Nd & Md).
  unfold smooth_discontinuous_network, model_of. rewrite G. cbn [mbind].
  replace (filter (fun k => is_discontinuous (get h k)) (modules h m)) with (@nil nat); [reflexivity|].
  assert (Ly : Forall (fun s => match s with SP _ => False | _ => True end) (mlp_slots a ni nh no si sh so)).
  { assert (Ly : forall t n I O s, t = ma_layer_type a \/ t = or_string (ma_layer_type_in a) (ma_layer_type a) ->
        match layer_slot t n I O s (ma_periodicity a) with SP _ => False | _ => True end).
    { intros t n I O s Ht. destruct (T t Ht) as [->| ->]; exact Logic.I. }
    apply mlp_slots_all; try (apply Ly; now auto); auto. }
  rewrite Forall_forall in Ly.
  assert (F : forall k, In k (modules h m) -> is_discontinuous (get h k) = false).
  { intros k Hk. apply Md in Hk. destruct Hk as [->|Hk]; [now rewrite Q|]. destruct (built_slot _ _ _ _ _ _ k B Hk) as (s & Hs & _ & D). specialize (Ly s Hs).
    destruct s; try contradiction; [destruct D as (? & ? & ? & El & _)|destruct D as (? & El)|destruct D as (_ & ? & ? & El)..]; now rewrite El. }
  clear -F. induction (modules h m) as [|k Ks IH]; [reflexivity|]. cbn [filter]. rewrite F by now left. apply IH. intros j Hj. apply F. now right.
Qed.
Print Assumptions C77_switch_layers_not_smoothed.

(** ** Cases *)
Lemma demo_built g lti lt n s : refinable_type lti -> refinable_type lt -> (1 <= n)%nat -> (1 <= s)%nat ->
  exists net h1, HighOrderMLP g (demo_args lti lt n s) demo_heap = Ok (net, h1).
Proof.
  intros Ti T Hn Hs.
  destruct (mlp_spec g _ _ _ _ _ _ _ demo_heap 0%nat (demo_plain lti lt n s Ti T Hn Hs) demo_heap_wf) as (n1 & e1 & ? & ? & ? & ? & ? & E1 & _); eauto.
  intros k Ek. injection Ek as <-. cbn. split; auto. split; [lia|]. eexists _, _. reflexivity.
Qed.
Lemma demo_activation lti lt n s : activation_in demo_heap (demo_args lti lt n s).
Proof. intros k Ek. injection Ek as <-. split; [cbn; lia|]. eexists _, _. reflexivity. Qed.

(** The network is initialised to lines of slope at most 1/2, e.g. by draws of 3/4. *)
Example C76_mlp_case : exists net h1 h',
  HighOrderMLP (fun k _ => INR k) (demo_args "discontinuous" "switch_continuous" 3 2) demo_heap = Ok (net, h1) /\
  initialize_network_polynomial_layers net 1 2 (fun i => / INR (i + 1)) (fun _ _ _ => 3/4) (fun _ _ _ => 1/4) h1 = (h', None) /\
  length (network_layers h' net) = 5%nat.
Proof.
  assert (Ti : refinable_type "discontinuous") by (right; now left). assert (T : refinable_type "switch_continuous") by (right; right; now left).
  destruct (demo_built (fun k _ => INR k) "discontinuous" "switch_continuous" 3 2 Ti T ltac:(lia) ltac:(lia)) as (net & h1 & E).
  destruct (C76_mlp_layers _ _ _ _ h1 _ _ _ _ _ _ _ 1 2 (fun i => / INR (i + 1)) (fun _ _ _ => 3/4) (fun _ _ _ => 1/4) demo_heap_wf
    (demo_plain "discontinuous" "switch_continuous" 3 2 Ti T ltac:(lia) ltac:(lia)) (demo_activation _ _ _ _)
    ltac:(lia) ltac:(lia) ltac:(lia) ltac:(lra) ltac:(lra)
    ltac:(intros i; apply Rlt_le, Rinv_0_lt_compat, lt_0_INR; lia) ltac:(intros; lra) ltac:(intros; lra) E (retrained_refl _)) as (h' & E' & _ & _ & L & _).
  exists net, h1, h'. auto.
Qed.

Definition demo_linear (lti lt : string) : mlp_args :=
  mkMLP lt (Int 3) 2 1 3 4 1 None None None false None None (Some (Int 2)) (Some (Int 2)) (Some (Int 2)) None false (Some lti) "uniform" (1/2).
Lemma demo_linear_plain lti lt : refinable_type lti -> refinable_type lt -> plain_mlp (demo_linear lti lt) 3 3 3 2 2 2.
Proof.
  intros Ti T. constructor; cbn; auto; try lia; try lra.
  destruct Ti as [->|[->|[->| ->]]]; cbn; unfold refinable_type; auto.
Qed.

Example C76_affine_case : exists net h1 h',
  HighOrderMLP (fun k _ => INR k) (demo_linear "discontinuous" "continuous") [] = Ok (net, h1) /\
  initialize_network_polynomial_layers net 1 2 (fun _ => 1/3) (fun _ _ _ => 3/4) (fun _ _ _ => 1/4) h1 = (h', None) /\
  rowwise_affine 2 1 (call h' net).
Proof.
  assert (Ti : refinable_type "discontinuous") by (right; now left). assert (T : refinable_type "continuous") by now left.
  assert (W0 : wf_heap []) by (intros i Hi; cbn in Hi; lia).
  destruct (mlp_spec (fun k _ => INR k) _ _ _ _ _ _ _ [] 0%nat (demo_linear_plain _ _ Ti T) W0) as (net & e1 & ? & ? & ? & ? & ? & E & _);
    [intros k Ek; discriminate|].
  destruct (C76_initialised_mlp_affine _ _ _ _ _ _ _ _ _ _ _ _ 1 2 (fun _ => 1/3) (fun _ _ _ => 3/4) (fun _ _ _ => 1/4) W0
    (demo_linear_plain _ _ Ti T) ltac:(lia) ltac:(lia) ltac:(lia) ltac:(cbn; intros t [->| ->]; auto) eq_refl eq_refl eq_refl
    ltac:(lra) ltac:(lra) ltac:(intros; lra) ltac:(intros; lra) ltac:(intros; lra) E (retrained_refl _)) as (h' & E' & A).
  exists net, ([] ++ e1), h'. auto.
Qed.

Lemma demo_continuous_norm lti lt n s f ps : ma_normalization (demo_args lti lt n s) = Some (f, ps) -> rowwise_continuous 4 4 f.
Proof. intros Ef. injection Ef as <- _. apply C78_elementwise_continuous. reg. Qed.
Lemma demo_continuous_activation lti lt n s k : ma_non_linearity (demo_args lti lt n s) = Some k ->
  (k < length demo_heap)%nat /\ exists f ps, get demo_heap k = OModule f ps /\ rowwise_continuous 4 4 f.
Proof. intros Ek. injection Ek as <-. split; [cbn; lia|]. eexists _, _. split; [reflexivity|]. apply C78_relu_continuous. Qed.

Example C78_case : exists net h1,
  HighOrderMLP (fun k _ => INR k) (demo_args "continuous" "switch_continuous" 3 2) demo_heap = Ok (net, h1) /\
  rowwise_continuous 2 1 (call h1 net).
Proof.
  assert (Ti : refinable_type "continuous") by now left. assert (T : refinable_type "switch_continuous") by (right; right; now left).
  destruct (demo_built (fun k _ => INR k) "continuous" "switch_continuous" 3 2 Ti T ltac:(lia) ltac:(lia)) as (net & h1 & E).
  exists net, h1. split; auto.
  apply (C78_mlp_continuous _ _ _ _ h1 _ _ _ _ _ _ _ demo_heap_wf (demo_plain "continuous" "switch_continuous" 3 2 Ti T ltac:(lia) ltac:(lia))
    ltac:(cbn; intros t [->| ->]; auto) ltac:(cbn; intros p Ep; injection Ep as <-; lra) (demo_continuous_norm _ _ _ _)
    (demo_continuous_activation _ _ _ _) E (retrained_refl _)).
Qed.

Example C77_case : exists net h1 h',
  HighOrderMLP (fun k _ => INR k) (demo_args "continuous" "discontinuous" 3 2) demo_heap = Ok (net, h1) /\
  smooth_discontinuous_network net 1 h1 = (h', None) /\ rowwise_continuous 2 1 (call h' net).
Proof.
  assert (Ti : refinable_type "continuous") by now left. assert (T : refinable_type "discontinuous") by (right; now left).
  destruct (demo_built (fun k _ => INR k) "continuous" "discontinuous" 3 2 Ti T ltac:(lia) ltac:(lia)) as (net & h1 & E).
  destruct (C77_smoothed_mlp_continuous _ _ _ _ h1 _ _ _ _ _ _ _ demo_heap_wf (demo_plain "continuous" "discontinuous" 3 2 Ti T ltac:(lia) ltac:(lia))
    ltac:(lia) ltac:(lia) ltac:(lia) ltac:(cbn; intros t [->| ->]; auto) ltac:(cbn; intros p Ep; injection Ep as <-; lra) (demo_continuous_norm _ _ _ _)
    (demo_continuous_activation _ _ _ _) E (retrained_refl _)) as (h' & E' & _ & C).
  exists net, h1, h'. auto.
Qed.

Example C77_switch_case : exists net h1,
  HighOrderMLP (fun k _ => INR k) (demo_args "switch_discontinuous" "switch_discontinuous" 3 2) demo_heap = Ok (net, h1) /\
  smooth_discontinuous_network net 1 h1 = (h1, None).
Proof.
  assert (T : refinable_type "switch_discontinuous") by (right; right; now right).
  destruct (demo_built (fun k _ => INR k) "switch_discontinuous" "switch_discontinuous" 3 2 T T ltac:(lia) ltac:(lia)) as (net & h1 & E).
  exists net, h1. split; auto.
  apply (C77_switch_layers_not_smoothed _ _ _ _ h1 _ _ _ _ _ _ _ 1 demo_heap_wf (demo_plain "switch_discontinuous" "switch_discontinuous" 3 2 T T ltac:(lia) ltac:(lia))
    (demo_activation _ _ _ _) ltac:(cbn; intros t [->| ->]; auto) E (retrained_refl _)).
Qed.

(** The hypotheses of the theorems on arbitrary heaps: a discontinuous, a continuous and a product layer, the last one in a
    switch layer, in a Sequential of a network. *)
Definition demo_net : heap :=
  [OPiecewise (demo2 PiecewiseDiscontinuousPolynomial 3 4); OPiecewise (demo2 PiecewisePolynomial 3 4);
   OPiecewise (demo2 PiecewiseDiscontinuousPolynomialProd 3 4); OSwitch 2 2 [2%nat] None; OSequential [0; 1; 3]%nat; OMLP 0 0 1 4].
Example C76_case : let visited := flat_map (polynomial_layers demo_net) (modules demo_net 5) in
  map fst visited = [0; 1; 2]%nat /\ NoDup (map fst visited) /\
  forall k i l, In (k, i) visited -> get demo_net k = OPiecewise l -> held l /\ pw_length l = 2 /\ (2 <= pw_n l)%nat.
Proof.
  cbv zeta. replace (flat_map (polynomial_layers demo_net) (modules demo_net 5)) with [(0, 2); (1, 2); (2, 2)]%nat by reflexivity.
  split; [reflexivity|]. split; [repeat constructor; cbn; intuition lia|].
  intros k i l [E|[E|[E|[]]]] G; injection E as <- <-; cbn in G; injection G as <-; (split; [apply demo2_held; lia|split; [reflexivity|cbn; lia]]).
Qed.
Example C77_heap_case : model_of demo_net 5 = Ok 4%nat /\ NoDup (modules demo_net 4) /\
  (forall k l, In k (modules demo_net 4) -> get demo_net k = OPiecewise l -> discontinuous_class (pw_cls l) -> held l /\ (2 <= pw_n l)%nat) /\
  In 0%nat (modules demo_net 4).
Proof.
  replace (modules demo_net 4) with [4; 0; 1; 3]%nat by reflexivity. split; [reflexivity|]. split; [repeat constructor; cbn; intuition lia|]. split; [|cbn; auto].
  intros k l [<-|[<-|[<-|[<-|[]]]]] G _; cbn in G; try discriminate; injection G as <-; (split; [apply demo2_held; lia|cbn; lia]).
Qed.
