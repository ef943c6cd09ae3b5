(** * The training loop with refinement of examples/invariant_mnist.py (C91). *)
From Coq Require Import FunctionalExtensionality String Reals Lra ZArith List Lia Bool Arith.
From Verif Require Import Spec Tensor Utils Normalization LagrangePolynomial Basis PolynomialLayers Refine ProductLayer LagrangeND
  Layers Networks LayerNorm Examples Observe ObserveNet SumFacts TensorFacts NormFacts HeapFacts NetFacts NetCopy NetTypes Prop_Net Prop_Norm Prop_MLP.
Import ListNotations.
Local Open Scope R_scope.

(** ** The normalisations of the table keep shapes *)
Lemma reduce_teq need op x x' dim m : (forall n f g, (forall k, (k < n)%nat -> f k = g k) -> op n f = op n g) -> teq x x' ->
  reduce_keep need op x dim = Ok m ->
  exists m', reduce_keep need op x' dim = Ok m' /\
    forall ix, valid (shape x) ix -> at_ m (set_nth (wrap (length (shape x)) dim) 0%nat ix) = at_ m' (set_nth (wrap (length (shape x')) dim) 0%nat ix).
Proof.
  intros Hop (Es & Ea) E. unfold reduce_keep in *. rewrite <- Es. destruct index_ok; [|discriminate]. destruct (_ && _)%bool; [discriminate|].
  injection E as <-. eexists. split; [reflexivity|]. intros ix Hv. cbn [at_]. apply Hop. intros k Hk. rewrite !set_nth_set_nth. apply Ea.
  now apply valid_set_nth.
Qed.
Lemma reduce_teq_err need op x x' dim e : teq x x' -> reduce_keep need op x dim = Err e -> reduce_keep need op x' dim = Err e.
Proof.
  intros (Es & _) E. unfold reduce_keep in *. rewrite <- Es. destruct index_ok; [|congruence]. destruct (_ && _)%bool; [congruence|discriminate].
Qed.
Lemma tmap_teq (f : R -> R) x x' : teq x x' -> teq (tmap f x) (tmap f x').
Proof. intros (Es & Ea). split; [exact Es|]. intros ix Hv. cbn in *. now rewrite Ea. Qed.

Lemma table_shape_preserving name m : normalization_layers name = Ok m -> shape_preserving (fun x => fst (normalization_call true m x)).
Proof.
  intros E. unfold normalization_layers in E.
  destruct (String.eqb name "max_abs"); [injection E as <-|destruct (String.eqb name "max_center"); [injection E as <-|
    destruct (String.eqb name "l2"); [injection E as <-|destruct (String.eqb name "layer_norm"); [injection E as <-|discriminate]]]];
    cbn [normalization_call fst].
  - split.
    + intros x x' T. unfold max_abs_normalization, max_abs. pose proof (tmap_teq Rabs x x' T) as T'.
      destruct (reduce_keep true rmax (tmap Rabs x) 1) as [mm|e] eqn:R.
      * destruct (reduce_teq _ _ _ _ _ _ rmax_ext T' R) as (m' & -> & V). cbn. split; [apply T|]. intros ix Hv. cbn in *. rewrite V by auto.
        now rewrite (proj2 T).
      * now rewrite (reduce_teq_err _ _ _ _ _ _ T' R).
    + intros x y. unfold max_abs_normalization. destruct (max_abs x 1); [|discriminate]. intros H. injection H as <-. reflexivity.
  - split.
    + intros x x' T. unfold max_center_normalization.
      destruct (reduce_keep true rmax x 1) as [ma|e] eqn:R.
      2:{ now rewrite (reduce_teq_err _ _ _ _ _ _ T R). }
      destruct (reduce_teq _ _ _ _ _ _ rmax_ext T R) as (ma' & -> & V). cbn [rbind].
      destruct (reduce_keep true rmin x 1) as [mi|e] eqn:R2.
      2:{ now rewrite (reduce_teq_err _ _ _ _ _ _ T R2). }
      destruct (reduce_teq _ _ _ _ _ _ rmin_ext T R2) as (mi' & -> & V2). cbn. split; [apply T|]. intros ix Hv. cbn in *.
      rewrite V, V2 by auto. now rewrite (proj2 T).
    + intros x y. unfold max_center_normalization. destruct (reduce_keep true rmax x 1); [|discriminate]. cbn [rbind].
      destruct (reduce_keep true rmin x 1); [|discriminate]. intros H. injection H as <-. reflexivity.
  - split.
    + intros x x' T. unfold l2_normalization.
      assert (Ho : forall n f g, (forall k, (k < n)%nat -> f k = g k) -> sqrt (rsum n (fun k => f k * f k)) = sqrt (rsum n (fun k => g k * g k))).
      { intros n f g H. f_equal. apply rsum_ext. intros k Hk. now rewrite H. }
      destruct (reduce_keep false _ x 1) as [mm|e] eqn:R.
      * destruct (reduce_teq _ _ _ _ _ _ Ho T R) as (m' & -> & V). cbn. split; [apply T|]. intros ix Hv. cbn in *. rewrite V by auto.
        now rewrite (proj2 T).
      * now rewrite (reduce_teq_err _ _ _ _ _ _ T R).
    + intros x y. unfold l2_normalization. destruct (reduce_keep _ _ x 1); [|discriminate]. intros H. injection H as <-. reflexivity.
  - split.
    + intros x x' (Es & Ea). unfold lazy_layer_norm. rewrite <- Es. destruct (rev (shape x)) as [|d r] eqn:Er; [reflexivity|].
      cbn [fst]. unfold layer_norm. rewrite <- Es, Er, Nat.eqb_refl. cbn. split; [reflexivity|]. cbn [shape at_]. intros ix Hv.
      assert (Ex : shape x = rev r ++ [d]) by (rewrite <- (rev_involutive (shape x)), Er; reflexivity).
      assert (V : forall j, (j < d)%nat -> valid (shape x) (removelast ix ++ [j])).
      { intros j Hj. rewrite Ex in Hv |- *. clear -Hv Hj. revert ix Hv. induction (rev r) as [|a s IH]; intros ix Hv.
        - destruct ix as [|i [|? ?]]; cbn in *; try tauto; lia.
        - destruct ix as [|i ix]; [destruct Hv|]. destruct Hv as (Hi & Hv). destruct ix as [|i2 ix]; [destruct s; destruct Hv|].
          change (removelast (i :: i2 :: ix)) with (i :: removelast (i2 :: ix)). cbn [app]. split; [exact Hi|]. now apply IH. }
      assert (Lt : (last ix 0 < d)%nat).
      { rewrite Ex in Hv. clear -Hv. revert ix Hv. induction (rev r) as [|a s IH]; intros ix Hv.
        - destruct ix as [|i [|? ?]]; cbn in *; try tauto; lia.
        - destruct ix as [|i ix]; [destruct Hv|]. destruct Hv as (Hi & Hv). destruct ix as [|i2 ix]; [destruct s; destruct Hv|].
          change (last (i :: i2 :: ix) 0%nat) with (last (i2 :: ix) 0%nat). now apply IH. }
      assert (M : rsum d (fun j => at_ x (removelast ix ++ [j])) = rsum d (fun j => at_ x' (removelast ix ++ [j]))) by (apply rsum_ext; intros j Hj; auto).
      rewrite M. rewrite (Ea _ (V _ Lt)). do 4 f_equal. f_equal. f_equal. apply rsum_ext. intros j Hj. now rewrite (Ea _ (V _ Hj)).
    + intros x y. unfold lazy_layer_norm. destruct (rev (shape x)) as [|d r] eqn:Er; [discriminate|]. cbn [fst]. unfold layer_norm. rewrite Er, Nat.eqb_refl.
      intros H. injection H as <-. reflexivity.
Qed.

Lemma table_on_width name m W : normalization_layers name = Ok m -> (1 <= W)%nat -> on_width W (fun x => fst (normalization_call true m x)).
Proof.
  intros E HW x B Hx. enough (exists y, fst (normalization_call true m x) = Ok y) as (y & Ey).
  { exists y. split; auto. now apply (proj2 (table_shape_preserving name m E)). }
  unfold normalization_layers in E.
  assert (Rk : forall nd op x, shape x = [B; W] -> exists r, reduce_keep nd op x 1 = Ok r).
  { intros nd op t Ht. unfold reduce_keep. rewrite Ht. cbn [length]. change (index_ok 2 1) with true. change (wrap 2 1) with 1%nat. cbn [nth].
    replace (W =? 0)%nat with false by (symmetry; apply Nat.eqb_neq; lia). rewrite andb_false_r. eauto. }
  destruct (String.eqb name "max_abs"); [injection E as <-|destruct (String.eqb name "max_center"); [injection E as <-|
    destruct (String.eqb name "l2"); [injection E as <-|destruct (String.eqb name "layer_norm"); [injection E as <-|discriminate]]]];
    cbn [normalization_call fst].
  - unfold max_abs_normalization, max_abs. destruct (Rk true rmax (tmap Rabs x) Hx) as (r & ->). cbn. eauto.
  - unfold max_center_normalization. destruct (Rk true rmax x Hx) as (r & ->). cbn [rbind]. destruct (Rk true rmin x Hx) as (r2 & ->). cbn. eauto.
  - unfold l2_normalization. destruct (Rk false (fun n f => sqrt (rsum n (fun k => f k * f k))) x Hx) as (r & ->). cbn. eauto.
  - unfold LazyLayerNormLastDim, lazy_layer_norm, layer_norm. rewrite Hx. cbn [rev app]. rewrite Nat.eqb_refl. cbn [fst]. eauto.
Qed.

(** ** Constructors only append objects, and do not look at the ones that are there *)
Definition framed {A} (Q : obj -> Prop) (b : nat) (fresh : A -> Prop) (m : M A) : Prop :=
  forall h h', length h' = length h -> (b <= length h)%nat ->
  match m h with
  | Ok (a, h1) => fresh a /\ exists e, h1 = h ++ e /\ m h' = Ok (a, h' ++ e) /\ Forall (fun o => (forall j, In j (refs o) -> (b <= j)%nat) /\ Q o) e
  | Err x => m h' = Err x
  end.
Lemma framed_ret {A} Q b (P : A -> Prop) a : P a -> framed Q b P (mret a).
Proof. intros H h h' _ _. cbn. split; auto. exists []. rewrite !app_nil_r. auto. Qed.
Lemma framed_raise {A} Q b (P : A -> Prop) e : framed Q b P (mraise e).
Proof. now intros h h' _ _. Qed.
Lemma framed_lift {A} Q b (P : A -> Prop) r : (forall a, r = Ok a -> P a) -> framed Q b P (mlift r).
Proof. intros H h h' _ _. unfold mlift. destruct r; auto. split; auto. exists []. rewrite !app_nil_r. auto. Qed.
Lemma framed_then {A B} Q b (P : A -> Prop) (P' : B -> Prop) (m : M A) k : framed Q b P m -> (forall a, P a -> framed Q b P' (k a)) -> framed Q b P' (mthen m k).
Proof.
  intros Hm Hk h h' El Lb. unfold mthen. specialize (Hm h h' El Lb). destruct (m h) as [(a & h1)|x]; [|now rewrite Hm].
  destruct Hm as (Pa & e & -> & -> & Fe). specialize (Hk a Pa (h ++ e) (h' ++ e)). rewrite !app_length, El in Hk. specialize (Hk eq_refl ltac:(lia)).
  destruct (k a (h ++ e)) as [(c & h2)|x]; auto. destruct Hk as (Qc & e' & -> & -> & Fe'). split; auto. exists (e ++ e'). rewrite <- !app_assoc.
  split; auto. split; auto. now apply Forall_app.
Qed.
Lemma framed_alloc (Q : obj -> Prop) b o : (forall k j, In j (refs (o k)) -> (b <= j)%nat) -> (forall k, Q (o k)) -> framed Q b (fun k => (b <= k)%nat) (alloc o).
Proof. intros H HQ h h' El Lb. unfold alloc. cbn. split; auto. exists [o (length h)]. rewrite El. split; auto. split; auto. constructor; [|constructor]. split; auto. apply H. Qed.
Lemma framed_weaken {A} Q b (P P' : A -> Prop) m : (forall a, P a -> P' a) -> framed Q b P m -> framed Q b P' m.
Proof. intros I Hm h h' El Lb. specialize (Hm h h' El Lb). destruct (m h) as [(a & h1)|]; auto. destruct Hm; auto. Qed.

Definition above (b : nat) (k : nat) : Prop := (b <= k)%nat.
Definition anything (o : obj) : Prop := True.
Lemma framed_pw b c g a : framed anything b (above b) (make_piecewise c g a).
Proof. unfold make_piecewise. destruct (fa_n a); [|apply framed_raise]. destruct (fa_segments a) as [[s|]|]; [|apply framed_raise|apply framed_raise]. apply framed_alloc; [intros ? ? []|easy]. Qed.
Lemma framed_basic b g t a : framed anything b (above b) (high_order_fc_layers_basic g t a).
Proof.
  unfold high_order_fc_layers_basic, fc_layers_basic.
  repeat match goal with |- context [if ?c then _ else _] => destruct c end; try apply framed_pw; try apply framed_raise.
  - unfold LinearReluAdapter. eapply framed_then; [apply framed_alloc; [intros ? ? []|easy]|]. intros f Hf. apply framed_alloc; [|easy]. intros k j [<-|[]]. exact Hf.
  - apply framed_alloc; [intros ? ? []|easy].
  - unfold make_polynomial. destruct (fa_n a); [apply framed_alloc; [intros ? ? []|easy]|apply framed_raise].
  - unfold make_polynomial_prod. destruct (fa_n a); apply framed_raise.
  - apply framed_alloc; [intros ? ? []|easy].
  - unfold make_fourier. destruct (fa_n a); [apply framed_alloc; [intros ? ? []|easy]|apply framed_raise].
  - intros h h' El Lb. unfold make_polynomial_nd. rewrite El. destruct new_PolynomialND; auto. cbn. split; auto. eexists. split; [reflexivity|]. split; [unfold alloc; rewrite El; reflexivity|]. constructor; [split; [intros j []|easy]|constructor].
  - intros h h' El Lb. unfold make_polynomial_nd. rewrite El. destruct new_PolynomialND; auto. cbn. split; auto. eexists. split; [reflexivity|]. split; [unfold alloc; rewrite El; reflexivity|]. constructor; [split; [intros j []|easy]|constructor].
  - intros h h' El Lb. unfold make_polynomial_nd. rewrite El. destruct new_PolynomialND; auto. cbn. split; auto. eexists. split; [reflexivity|]. split; [unfold alloc; rewrite El; reflexivity|]. constructor; [split; [intros j []|easy]|constructor].
  - intros h h' El Lb. unfold make_polynomial_nd. rewrite El. destruct new_PolynomialND; auto. cbn. split; auto. eexists. split; [reflexivity|]. split; [unfold alloc; rewrite El; reflexivity|]. constructor; [split; [intros j []|easy]|constructor].
  - intros h h' El Lb. unfold make_piecewise_nd. destruct (fa_n a); auto. destruct (fa_segments a); auto. rewrite El. destruct new_PiecewiseND; auto. cbn. split; auto. eexists. split; [reflexivity|]. split; [unfold alloc; rewrite El; reflexivity|]. constructor; [split; [intros j []|easy]|constructor].
Qed.
Lemma framed_replicate Q b n m : framed Q b (above b) m -> framed Q b (Forall (above b)) (replicate n m).
Proof.
  intros H. induction n as [|n IH]; [apply framed_ret; constructor|]. cbn. eapply framed_then; [exact H|]. intros l Hl.
  eapply framed_then; [exact IH|]. intros ls Hls. apply framed_ret. now constructor.
Qed.
Lemma framed_factory b g t a : framed anything b (above b) (high_order_fc_layers g t a).
Proof.
  unfold high_order_fc_layers, SwitchLayer.
  repeat match goal with |- context [if ?c then _ else _] => destruct c end; try apply framed_basic;
    (eapply framed_then; [apply framed_replicate, framed_basic|]; intros ls Hls; apply framed_alloc; [|easy]; intros k j Hj; cbn in Hj; rewrite app_nil_r in Hj;
     rewrite Forall_forall in Hls; now apply Hls).
Qed.
(** Layer types whose objects have neither [interpolate] nor [refine]. *)
Definition fixed_type (t : string) : Prop := In t ["polynomial"; "fourier"; "product"; "baseline"; "baseline_relu"]%string.
Definition fixed_obj (o : obj) : Prop := has_refine o = false.
Lemma framed_fixed b g t a : fixed_type t -> framed fixed_obj b (above b) (high_order_fc_layers g t a).
Proof.
  intros [<-|[<-|[<-|[<-|[<-|[]]]]]]; unfold high_order_fc_layers, high_order_fc_layers_basic, fc_layers_basic; cbn [String.eqb Ascii.eqb Bool.eqb].
  - unfold make_polynomial. destruct (fa_n a); [apply framed_alloc; [intros ? ? []|easy]|apply framed_raise].
  - unfold make_fourier. destruct (fa_n a); [apply framed_alloc; [intros ? ? []|easy]|apply framed_raise].
  - apply framed_alloc; [intros ? ? []|easy].
  - apply framed_alloc; [intros ? ? []|easy].
  - unfold LinearReluAdapter. eapply framed_then; [apply framed_alloc; [intros ? ? []|easy]|]. intros f Hf. apply framed_alloc; [|easy]. intros k j [<-|[]]. exact Hf.
Qed.
Lemma framed_between (Q : obj -> Prop) b nm : (forall f ps, Q (OModule f ps)) -> framed Q b (Forall (above b)) (between nm None).
Proof.
  intros Hq. unfold between. eapply framed_then with (P := Forall (above b)).
  - destruct nm as [[f ps]|]; [|apply framed_ret; constructor]. eapply framed_then; [apply framed_alloc; [intros ? ? []|auto]|]. intros k Hk. apply framed_ret. now repeat constructor.
  - intros l Hl. apply framed_ret. now rewrite app_nil_r.
Qed.
Lemma framed_mlp (Q : obj -> Prop) b g a : (forall f ps, Q (OModule f ps)) -> (forall L, Q (OSequential L)) -> (forall d i o m, Q (OMLP d i o m)) ->
  (forall t n I O s, t = ma_layer_type a \/ t = or_string (ma_layer_type_in a) (ma_layer_type a) -> framed Q b (above b) (mlp_layer g a t n I O s)) ->
  ma_non_linearity a = None -> ma_resnet a = false -> framed Q b (above b) (HighOrderMLP g a).
Proof.
  intros Q1 Q2 Q3 Hf Hn Hr. unfold HighOrderMLP. destruct Rlt_dec; [apply framed_raise|]. destruct Rlt_dec; [apply framed_raise|]. rewrite Hn.
  eapply framed_then; [apply framed_alloc; [intros ? ? []|auto]|]. intros dl Hd.
  assert (D : Forall (above b) (dropout_list a dl)) by (unfold dropout_list; destruct Rlt_dec; now repeat constructor).
  eapply framed_then; [apply Hf; now right|]. intros k1 Hk1. eapply framed_then with (P := Forall (above b)).
  - assert (L : Forall (above b) [k1]) by now repeat constructor. generalize 0%nat at 1. revert L. generalize [k1].
    induction (ma_hidden_layers a) as [|hl IH]; intros l L i; [now apply framed_ret|]. cbn [mlp_hidden]. rewrite Hn, Hr. cbn [andb].
    eapply framed_then; [now apply framed_between|]. intros bt Hb. cbn zeta.
    eapply framed_then; [apply Hf; now left|]. intros k Hk. cbv beta iota. eapply framed_then with (P := above b); [apply framed_ret; exact Hk|]. intros k' Hk'.
    apply IH. rewrite !Forall_app. repeat split; auto.
  - intros ls Hls. eapply framed_then; [now apply framed_between|]. intros bt Hb. eapply framed_then; [apply Hf; now left|]. intros k2 Hk2.
    assert (All : Forall (above b) (ls ++ bt ++ dropout_list a dl ++ [k2])) by (rewrite !Forall_app; repeat split; auto).
    rewrite Forall_forall in All. eapply framed_then; [apply framed_alloc; [intros _ j Hj; now apply All|auto]|]. intros m Hm. apply framed_alloc; [|auto].
    intros _ j Hj. cbn in Hj. unfold above in *. intuition lia.
Qed.
Lemma framed_inv b g c nm n : framed anything b (above b) (HighOrderMLP g (inv_args c nm n)).
Proof. apply framed_mlp; try easy. intros. apply framed_factory. Qed.
Lemma framed_inv_fixed b g c nm n : fixed_type (ic_layer_type c) -> framed fixed_obj b (above b) (HighOrderMLP g (inv_args c nm n)).
Proof. intros T. apply framed_mlp; try easy. intros t n' I O s Ht. apply framed_fixed. destruct Ht as [->| ->]; exact T. Qed.

(** ** Configurations *)

(** A usable configuration, for networks with [n] nodes: all sizes positive, a normalisation of the table, dropout in [0,1]. *)
Record usable (c : inv_cfg) : Prop := mkUsable {
  us_widths : (1 <= ic_in_width c /\ 1 <= ic_hidden_width c /\ 1 <= ic_out_width c)%nat;
  us_segments : (1 <= ic_in_segments c /\ 1 <= ic_hidden_segments c /\ 1 <= ic_out_segments c)%nat;
  us_normalize : forall name, ic_normalize c = Some name -> In name ["max_abs"; "max_center"; "l2"]%string;
  us_dropout : 0 <= ic_dropout c <= 1 }.
(** Training, whatever it does, changes weights only. *)
Definition changes_weights (train : nat -> nat -> heap -> heap) : Prop := forall order model h, retrained h (train order model h).

Lemma usable_norm c : usable c -> exists nm, inv_normalization c = Ok nm /\
  (forall f ps, nm = Some (f, ps) -> shape_preserving f) /\ (forall W f ps, (1 <= W)%nat -> nm = Some (f, ps) -> on_width W f).
Proof.
  intros [_ _ Un _]. unfold inv_normalization. destruct (ic_normalize c) as [name|]; [|exists None; repeat split; intros; discriminate].
  specialize (Un name eq_refl). assert (E : exists m, normalization_layers name = Ok m).
  { destruct Un as [<-|[<-|[<-|[]]]]; cbn; eauto. }
  destruct E as (m & E). rewrite E. cbn. eexists. split; [reflexivity|]. split; intros.
  - injection H as <- _. now apply (table_shape_preserving name).
  - injection H0 as <- _. now apply (table_on_width name).
Qed.
Lemma inv_plain c nm n : usable c -> refinable_type (ic_layer_type c) -> (1 <= n)%nat ->
  plain_mlp (inv_args c nm n) n n n (ic_in_segments c) (ic_hidden_segments c) (ic_out_segments c).
Proof.
  intros [Uw Us _ Ud] T Hn. destruct n as [|n]; [lia|]. constructor; cbn; auto; try lia; tauto.
Qed.
Lemma inv_flat c nm n h : usable c -> refinable_type (ic_layer_type c) -> (1 <= n)%nat ->
  (forall W f ps, (1 <= W)%nat -> nm = Some (f, ps) -> on_width W f) -> flat_mlp h (inv_args c nm n).
Proof.
  intros [Uw Us _ Ud] T Hn Ow. destruct n as [|n]; [lia|].
  assert (F : forall s, (1 <= s)%nat -> flat_layer (ic_layer_type c) (Int (S n)) (Some (Int s))).
  { intros s Hs. right. right. split; [destruct T as [->|[->|[->| ->]]]; cbn; tauto|]. exists (S n), s. repeat split; auto. }
  constructor; cbn; try tauto; try (apply F; tauto); try (right; apply F; tauto).
  - intros f ps E. apply (Ow _ f ps); tauto.
  - discriminate.
Qed.
Lemma inv_same c nm n n' h0 : (forall f ps, nm = Some (f, ps) -> shape_preserving f) -> same_architecture h0 (inv_args c nm n) (inv_args c nm n').
Proof. intros H. constructor; cbn; auto. Qed.

(** The network of order [order], built on some heap, and what training and refining have made of that heap. *)
Definition stage_state (c : inv_cfg) (nm : option norm_class) (order model : nat) (h : heap) : Prop :=
  exists g hb h1, wf_heap hb /\ HighOrderMLP g (inv_args c nm order) hb = Ok (model, h1) /\ retrained h1 h.

Lemma retrained_app h h' e : retrained h h' -> retrained (h ++ e) (h' ++ e).
Proof.
  intros (L & H). split; [rewrite !app_length; lia|]. intros i Hi. rewrite app_length in Hi.
  destruct (Nat.lt_ge_cases i (length h)) as [Lt|Ge]; [rewrite !get_app_l by lia; auto|].
  remember (i - length h)%nat as k eqn:Ek. assert (E1 : get (h ++ e) i = get e k) by (replace i with (length h + k)%nat by lia; apply get_app_r).
  assert (E2 : get (h' ++ e) i = get e k) by (replace i with (length h' + k)%nat by lia; apply get_app_r). rewrite E1, E2. apply RwSame.
Qed.

Lemma inv_step g c nm train order model h : usable c -> refinable_type (ic_layer_type c) -> (1 <= order)%nat -> changes_weights train ->
  inv_normalization c = Ok nm -> (forall f ps, nm = Some (f, ps) -> shape_preserving f) -> stage_state c nm order model h ->
  let ht := train order model h in
  exists next h1 h', inv_net g c (order + 1) ht = Ok (next, h1) /\ interpolate_high_order_mlp model next h1 = (h', None) /\ retrained h1 h' /\
    stage_state c nm (order + 1) next h' /\
    forall B x, shape x = [B; ic_in_width c] -> same_result (call ht model x) (call h' next x) /\
      exists y, call h' next x = Ok y /\ shape y = [B; ic_out_width c].
Proof.
  intros U T Ho Tr En Hn (gm & hb & hm & W & Em & Rm) ht.
  assert (Rt : retrained hm ht) by (eapply retrained_trans; [exact Rm|apply Tr]).
  pose proof (inv_plain c nm order U T Ho) as P. pose proof (inv_plain c nm (order + 1) U T ltac:(lia)) as P'.
  assert (NoAct : forall k, ma_non_linearity (inv_args c nm order) = Some k -> k = 0%nat /\ (0 < length hb)%nat /\ exists f ps, get hb 0 = OModule f ps) by discriminate.
  destruct (mlp_spec gm _ _ _ _ _ _ _ hb 0%nat P W NoAct) as (m0 & e0 & dl & k1 & k2 & m & L & E0 & _ & _ & B0 & _ & Lm & _). clear NoAct.
  rewrite Em in E0. injection E0 as <- ->. assert (Wm : wf_heap (hb ++ e0)) by apply B0.
  assert (NoAct : forall k, ma_non_linearity (inv_args c nm (order + 1)) = Some k -> k = 0%nat /\ (0 < length (hb ++ e0))%nat /\ exists f ps, get (hb ++ e0) 0 = OModule f ps) by discriminate.
  destruct (mlp_spec g _ _ _ _ _ _ _ (hb ++ e0) 0%nat P' Wm NoAct) as (next & e1 & dl' & k1' & k2' & m' & L' & E1 & _ & _ & B1 & _).
  set (hm := hb ++ e0) in *.
  assert (El : length ht = length hm) by apply Rt.
  pose proof (framed_inv 0 g c nm (order + 1) hm ht El ltac:(lia)) as F. rewrite E1 in F.
  destruct F as (_ & e & Ee & Et & _). apply app_inv_head in Ee. subst e.
  destruct (C20_interpolated_mlp_same_output gm g _ _ hb hm (hm ++ e1) (ht ++ e1) model next _ _ _ _ _ _ _ _ _ W P P' (inv_same c nm _ _ hb Hn)
              ltac:(lia) ltac:(lia) ltac:(lia) Em E1 (retrained_app _ _ _ Rt)) as (h' & Ec & Rh & Sm).
  exists next, (ht ++ e1), h'. split; [unfold inv_net, mthen, mlift; rewrite En; exact Et|]. split; [exact Ec|]. split; [exact Rh|]. split.
  - exists g, ht, (ht ++ e1). split; [now apply (retrained_wf hm)|]. split; auto.
  - intros B x Hx. destruct (Sm B x Hx) as (S1 & _). rewrite (call_app ht e1) in S1 by (rewrite El; exact Lm). split; [exact S1|].
    destruct (usable_norm c U) as (nm' & En' & _ & Ow). assert (nm' = nm) by congruence. subst nm'.
    destruct (mlp_typed g (inv_args c nm (order + 1)) hm Wm (inv_flat c nm (order + 1) hm U T ltac:(lia) Ow)) as (k & e & Ek & We & Ty & _).
    rewrite E1 in Ek. injection Ek as <- Ee. apply app_inv_head in Ee. subst e.
    destruct (typed_maps _ _ _ _ We Ty h' (retrained_trans _ _ _ (retrained_app _ _ _ Rt) Rh) x B Hx) as (y & Ey & Sy). eauto.
Qed.

(** ** C91 *)

(** The run with refinement, order by order: [states o] is the network and the heap with which order [o] starts.  Training changes it;
    the network of the next order is then built, and after the interpolation it returns exactly what the trained network
    returns, for every batch.  The model that is tested is the one of order [target_n], and it has not been trained. *)
Theorem C91_refinement_keeps_training : forall g c train n target_n h0,
  usable c -> refinable_type (ic_layer_type c) -> (1 <= n < target_n)%nat -> changes_weights train -> wf_heap h0 ->
  exists states : nat -> nat * heap,
    inv_net (g n) c n h0 = Ok (states n) /\
    (forall order, (n <= order < target_n)%nat ->
       let '(model, h) := states order in
       let ht := train order model h in
       let '(next, h') := states (order + 1)%nat in
       (exists h1, inv_net (g (order + 1)%nat) c (order + 1) ht = Ok (next, h1) /\ retrained h1 h') /\
       forall B x, shape x = [B; ic_in_width c] -> same_result (call ht model x) (call h' next x) /\
         exists y, call h' next x = Ok y /\ shape y = [B; ic_out_width c]) /\
    invariant_mnist g c train true n target_n h0 = Ok (states target_n).
Proof.
  intros g c train n target_n h0 U T Hn Tr W.
  destruct (usable_norm c U) as (nm & En & Hsp & _).
  pose proof (inv_plain c nm n U T ltac:(lia)) as P.
  destruct (mlp_spec (g n) _ _ _ _ _ _ _ h0 0%nat P W) as (model & e & dl & k1 & k2 & m & L & E & _); [discriminate|].
  assert (S0 : stage_state c nm n model (h0 ++ e)) by (exists (g n), h0, (h0 ++ e); split; auto; split; auto; apply retrained_refl).
  assert (E0 : inv_net (g n) c n h0 = Ok (model, h0 ++ e)) by (unfold inv_net, mthen, mlift; now rewrite En).
  assert (Loop : forall k order model h, (1 <= order)%nat -> stage_state c nm order model h ->
    exists states : nat -> nat * heap, states order = (model, h) /\
      (forall o, (order <= o < order + k)%nat ->
         let '(model, h) := states o in
         let ht := train o model h in
         let '(next, h') := states (o + 1)%nat in
         (exists h1, inv_net (g (o + 1)%nat) c (o + 1) ht = Ok (next, h1) /\ retrained h1 h') /\
         forall B x, shape x = [B; ic_in_width c] -> same_result (call ht model x) (call h' next x) /\
           exists y, call h' next x = Ok y /\ shape y = [B; ic_out_width c]) /\
      inv_loop g c train order k model h = Ok (states (order + k)%nat)).
  { clear -U T Tr En Hsp. induction k as [|k IH]; intros order model h Ho St.
    - exists (fun _ => (model, h)). split; auto. split; [intros o Hk; lia|reflexivity].
    - destruct (inv_step (g (order + 1)%nat) c nm train order model h U T Ho Tr En Hsp St) as (next & h1 & h' & Eb & Ei & Rh & St' & Sm).
      destruct (IH (order + 1)%nat next h' ltac:(lia) St') as (states & S0 & Sk & El).
      exists (fun o => if Nat.eqb o order then (model, h) else states o). rewrite Nat.eqb_refl. split; auto. split.
      + intros o Hk. destruct (Nat.eqb_spec o order) as [->|Ne].
        * replace (order + 1 =? order)%nat with false by (symmetry; apply Nat.eqb_neq; lia). rewrite S0. cbn zeta. split; [eauto|exact Sm].
        * replace (o + 1 =? order)%nat with false by (symmetry; apply Nat.eqb_neq; lia). apply Sk. lia.
      + replace (order + S k =? order)%nat with false by (symmetry; apply Nat.eqb_neq; lia).
        replace (order + S k)%nat with (order + 1 + k)%nat by lia. cbn [inv_loop]. cbn zeta. rewrite (mthen_ok _ _ _ _ _ Eb). rewrite Ei. exact El. }
  destruct (Loop (target_n - n)%nat n model (h0 ++ e) ltac:(lia) S0) as (states & Sn & Sk & El). replace (n + (target_n - n))%nat with target_n in * by lia.
  exists states. split; [now rewrite Sn|]. split; [exact Sk|].
  unfold invariant_mnist. rewrite (mthen_ok _ _ _ _ _ E0). cbn [negb]. unfold mthen. rewrite El. destruct (states target_n) as (mt & ht).
  replace (target_n =? n)%nat with false by (symmetry; apply Nat.eqb_neq; lia). reflexivity.
Qed.
Print Assumptions C91_refinement_keeps_training.

(** Without refinement the network is built once and trained once. *)
Theorem C91_without_refinement : forall g c train n target_n h0 model h,
  inv_net (g n) c n h0 = Ok (model, h) -> invariant_mnist g c train false n target_n h0 = Ok (model, train n model h).
Proof. intros g c train n target_n h0 model h E. unfold invariant_mnist. rewrite (mthen_ok _ _ _ _ _ E). reflexivity. Qed.
Print Assumptions C91_without_refinement.

(** With refinement, a target equal to the order one starts with is an error, and with a smaller target the network is tested
    as it was initialised, whatever training would have done. *)
Theorem C91_no_orders_no_training : forall g c train n target_n h0 model h,
  inv_net (g n) c n h0 = Ok (model, h) -> (target_n <= n)%nat ->
  invariant_mnist g c train true n target_n h0 = if Nat.eqb target_n n then Err ZeroDivisionError else Ok (model, h).
Proof.
  intros g c train n target_n h0 model h E L. unfold invariant_mnist. rewrite (mthen_ok _ _ _ _ _ E). cbn [negb].
  replace (target_n - n)%nat with 0%nat by lia. unfold mthen. cbn. now destruct (target_n =? n)%nat.
Qed.
Print Assumptions C91_no_orders_no_training.

(** The epochs of a run are split evenly over the orders below the target, the remainder is lost, and fewer epochs than orders
    means none at all. *)
Theorem C91_epochs : forall max_epochs n target_n, (n < target_n)%nat ->
  ((target_n - n) * inv_epochs max_epochs n target_n <= max_epochs < (target_n - n) * inv_epochs max_epochs n target_n + (target_n - n))%nat /\
  (inv_epochs max_epochs n target_n = 0%nat <-> (max_epochs < target_n - n)%nat).
Proof.
  intros me n t L. unfold inv_epochs. assert (D : (t - n <> 0)%nat) by lia.
  pose proof (Nat.div_mod me (t - n) D). pose proof (Nat.mod_upper_bound me (t - n) D). split; [lia|]. split; intros H1.
  - apply Nat.div_small_iff in H1; auto.
  - now apply Nat.div_small.
Qed.
Print Assumptions C91_epochs.

(** *** Layer types without [interpolate] *)

(** Objects at or above [b] only refer to each other, and none has [interpolate]. *)
Definition closed (b : nat) (h : heap) : Prop := forall i, (b <= i < length h)%nat -> (forall j, In j (refs (get h i)) -> (b <= j)%nat) /\ has_refine (get h i) = false.
Lemma closed_app h e : Forall (fun o => (forall j, In j (refs o) -> (length h <= j)%nat) /\ fixed_obj o) e -> closed (length h) (h ++ e).
Proof.
  intros F i Hi. rewrite app_length in Hi. replace i with (length h + (i - length h))%nat by lia. rewrite get_app_r.
  rewrite Forall_forall in F. apply F. unfold get. apply nth_In. lia.
Qed.
Lemma closed_retrained b h h' : retrained h h' -> closed b h -> closed b h'.
Proof.
  intros R Hc i Hi. destruct R as (L & R). rewrite L in Hi. destruct (Hc i Hi) as (Hr & Hf). split.
  - intros j Hj. apply Hr. rewrite <- (retrained_refs h h'); auto; [now split|lia].
  - specialize (R i (proj2 Hi)). destruct R; auto.
Qed.
Lemma walk_within b h : wf_heap h -> closed b h -> forall i memo, (b <= i < length h)%nat -> Forall (fun k => b <= k < length h)%nat memo ->
  Forall (fun k => b <= k < length h)%nat (walk h i memo).
Proof.
  intros W Hc. induction i as [i IH] using lt_wf_ind. intros memo Hi Hm. rewrite walk_unfold by (auto; lia). destruct mem; auto.
  assert (Hin : forall j, In j (children (get h i)) -> (b <= j < i)%nat).
  { intros j Hj. apply children_refs in Hj. split; [now apply (Hc i Hi)|apply (W i); auto; lia]. }
  assert (H0 : Forall (fun k => b <= k < length h)%nat (memo ++ [i])) by (apply Forall_app; auto). clear Hm. revert H0 Hin. generalize (memo ++ [i]).
  induction (children (get h i)) as [|j L IL]; intros m Hm Hin; auto. cbn. apply IL; [|intros; apply Hin; now right].
  assert (b <= j < i)%nat by (apply Hin; now left). apply IH; auto; lia.
Qed.
Lemma nothing_copied b h i j : wf_heap h -> closed b h -> (b <= i < length h)%nat -> (exists d k1 k2 m, get h i = OMLP d k1 k2 m) ->
  (exists d k1 k2 m, get h j = OMLP d k1 k2 m) -> interpolate_high_order_mlp i j h = (h, None).
Proof.
  intros W Hc Hi (d & k1 & k2 & m & E) (d' & k1' & k2' & m' & E'). unfold interpolate_high_order_mlp, copy_network, layers_of, model_of. rewrite E, E'.
  cbn [rbind mbind]. assert (Hm : (b <= m < length h)%nat).
  { destruct (Hc i Hi) as (Hr & _). rewrite E in Hr. split; [apply Hr; cbn; tauto|]. apply Nat.lt_trans with i; [|lia]. apply (W i); [lia|]. rewrite E. cbn. tauto. }
  assert (F : Forall (fun k => has_refine (get h k) = false) (filter (fun k => negb (is_sequential (get h k))) (modules h m))).
  { apply Forall_forall. intros k Hk. apply filter_In in Hk. destruct Hk as (Hk & _). change (modules h m) with (walk h m []) in Hk.
    pose proof (walk_within b h W Hc m [] Hm ltac:(constructor)) as Fw. rewrite Forall_forall in Fw. now apply (Hc k), Fw. }
  revert F. generalize (filter (fun k => negb (is_sequential (get h k))) (modules h m)) (filter (fun k => negb (is_sequential (get h k))) (modules h m')).
  intros L. induction L as [|x L IL]; intros L' F; [reflexivity|]. destruct L' as [|y L']; [reflexivity|]. cbn.
  rewrite (Forall_inv F). apply IL. exact (Forall_inv_tail F).
Qed.
Lemma call_above b h h' : wf_heap h -> wf_heap h' -> length h' = length h -> (forall i, (b <= i < length h)%nat -> forall j, In j (refs (get h i)) -> (b <= j)%nat) ->
  (forall i, (b <= i < length h)%nat -> get h' i = get h i) -> forall i, (b <= i < length h)%nat -> call h' i = call h i.
Proof.
  intros W W' L Hc Hg. induction i as [i IH] using lt_wf_ind. intros Hi. apply functional_extensionality. intros x. rewrite !call_unfold by (auto; lia).
  rewrite Hg by lia. apply obj_forward_ext. intros j Hj. assert (j < i)%nat by (apply (W i); auto; lia). apply IH; auto. split; [now apply (Hc i)|lia].
Qed.
Lemma mlp_object g a h net h1 : HighOrderMLP g a h = Ok (net, h1) -> (net < length h1)%nat /\ exists d k1 k2 m, get h1 net = OMLP d k1 k2 m.
Proof.
  unfold HighOrderMLP. destruct Rlt_dec; [discriminate|]. destruct Rlt_dec; [discriminate|]. unfold mthen, alloc.
  repeat match goal with |- context [match ?m ?h with _ => _ end] => destruct (m h) as [[]|]; try discriminate end.
  intros E.
  injection E as <- <-. split; [rewrite (app_length (_ ++ _)); cbn [length]; lia|]. rewrite get_last. eauto.
Qed.
Lemma fixed_flat c nm n h : usable c -> fixed_type (ic_layer_type c) -> (1 <= n)%nat ->
  (forall W f ps, (1 <= W)%nat -> nm = Some (f, ps) -> on_width W f) -> flat_mlp h (inv_args c nm n).
Proof.
  intros [Uw Us _ Ud] T Hn Ow. destruct n as [|n]; [lia|].
  assert (F : forall s, flat_layer (ic_layer_type c) (Int (S n)) (Some (Int s))).
  { intros s. destruct T as [<-|[<-|[<-|[<-|[<-|[]]]]]]; [right; left|right; left|left|left|left]; cbn; try tauto;
    (split; [tauto|]; exists (S n); split; auto; lia). }
  constructor; cbn; try tauto; try (apply F; tauto); try (right; apply F; tauto).
  - intros f ps E. apply (Ow _ f ps); tauto.
  - discriminate.
Qed.

(** For the layer types that have no [interpolate], the default "polynomial" among them, all training is thrown away: with any
    two ways of training, the network that is tested is the same function, the one it was initialised with. *)
Theorem C91_fixed_types_lose_training : forall g c train train' n target_n h0,
  usable c -> fixed_type (ic_layer_type c) -> (1 <= n < target_n)%nat -> changes_weights train -> changes_weights train' -> wf_heap h0 ->
  exists model h h', invariant_mnist g c train true n target_n h0 = Ok (model, h) /\ invariant_mnist g c train' true n target_n h0 = Ok (model, h') /\
    (exists hb, inv_net (g target_n) c target_n hb = Ok (model, h)) /\
    (forall x, call h' model x = call h model x) /\
    forall B x, shape x = [B; ic_in_width c] -> exists y, call h model x = Ok y /\ shape y = [B; ic_out_width c].
Proof.
  intros g c train train' n target_n h0 U T Hn Tr Tr' W. destruct (usable_norm c U) as (nm & En & _ & Ow).
  assert (Net : forall gg o h, inv_net gg c o h = HighOrderMLP gg (inv_args c nm o) h) by (intros; unfold inv_net, mthen, mlift; now rewrite En).
  set (goal := fun (b o model : nat) (h h' : heap) => wf_heap h /\ wf_heap h' /\ exists hb hb' e, length hb = b /\ length hb' = b /\ h = hb ++ e /\ h' = hb' ++ e /\
      HighOrderMLP (g o) (inv_args c nm o) hb = Ok (model, h) /\ HighOrderMLP (g o) (inv_args c nm o) hb' = Ok (model, h') /\ (b <= model)%nat /\
      closed b h /\ closed b h' /\ typed h model (ic_in_width c) (ic_out_width c)).
  assert (Build : forall o hb hb', (1 <= o)%nat -> wf_heap hb -> wf_heap hb' -> length hb' = length hb -> exists model e,
    inv_net (g o) c o hb = Ok (model, hb ++ e) /\ inv_net (g o) c o hb' = Ok (model, hb' ++ e) /\ goal (length hb) o model (hb ++ e) (hb' ++ e)).
  { intros o hb hb' Ho Wb Wb' El. destruct (mlp_typed (g o) (inv_args c nm o) hb Wb (fixed_flat c nm o hb U T Ho Ow)) as (k & e & Ek & We & Ty & _).
    destruct (mlp_typed (g o) (inv_args c nm o) hb' Wb' (fixed_flat c nm o hb' U T Ho Ow)) as (k' & e' & Ek' & We' & _).
    pose proof (framed_inv_fixed (length hb) (g o) c nm o T hb hb' El (Nat.le_refl _)) as F. rewrite Ek in F. destruct F as (Ab & e2 & Ee & Et & Fe).
    apply app_inv_head in Ee. subst e2. rewrite Et in Ek'. injection Ek' as <- Ee. apply app_inv_head in Ee. subst e'.
    exists k, e. rewrite !Net. split; auto. split; auto. split; auto. split; auto. exists hb, hb', e. repeat (split; [now auto|]).
    split; [now apply closed_app|]. split; [|exact Ty]. rewrite <- El. apply closed_app. now rewrite El. }
  assert (Step : forall tr o b model h e next, changes_weights tr -> wf_heap h -> closed b h -> (b <= model < length h)%nat ->
     (exists gg a hb, HighOrderMLP gg a hb = Ok (model, h)) -> (exists gg a hb, HighOrderMLP gg a hb = Ok (next, tr o model h ++ e)) ->
     wf_heap (tr o model h ++ e) -> closed (length h) (tr o model h ++ e) ->
     interpolate_high_order_mlp model next (tr o model h ++ e) = (tr o model h ++ e, None)).
  { clear. intros tr o b model h e next Tr Wh Hc Hb (gg & a & hb & Em) (g' & a' & hb' & En) W1 Hnew. specialize (Tr o model h).
    apply mlp_object in Em. destruct Em as (Lm & d & k1 & k2 & m & Em). apply mlp_object in En. destruct En as (_ & En).
    assert (Lt : length (tr o model h) = length h) by apply Tr. pose proof (closed_retrained b h _ Tr Hc) as Hct.
    apply (nothing_copied b); auto.
    - intros i Hi. destruct (Nat.lt_ge_cases i (length h)) as [Lt'|Ge].
      + rewrite get_app_l by lia. apply Hct. lia.
      + destruct (Hnew i) as (N1 & N2); [lia|]. split; auto. intros j Hj. specialize (N1 j Hj). lia.
    - rewrite app_length. lia.
    - exists d, k1, k2, m. rewrite get_app_l by lia. destruct Tr as (_ & Tr). specialize (Tr model Lm). rewrite Em in Tr. now inversion Tr. }
  assert (Loop : forall k b o model h h', (1 <= o)%nat -> goal b o model h h' -> exists b' model' hf hf',
    inv_loop g c train o k model h = Ok (model', hf) /\ inv_loop g c train' o k model h' = Ok (model', hf') /\ goal b' (o + k)%nat model' hf hf').
  { induction k as [|k IH]; intros b o model h h' Ho G.
    - exists b, model, h, h'. cbn [inv_loop]. rewrite Nat.add_0_r. auto.
    - destruct G as (Wh & Wh' & hb & hb' & e & Lb & Lb' & Eh & Eh' & Em & Em' & Lm & Hc & Hc' & _).
      assert (Lh : length h' = length h) by (subst h h'; rewrite !app_length; lia).
      assert (Rt : retrained h (train o model h)) by apply Tr. assert (Rt' : retrained h' (train' o model h')) by apply Tr'.
      assert (Lr : length (train o model h) = length h) by apply Rt. assert (Lr' : length (train' o model h') = length h') by apply Rt'.
      destruct (Build (o + 1)%nat (train o model h) (train' o model h') ltac:(lia) (retrained_wf _ _ Rt Wh) (retrained_wf _ _ Rt' Wh') ltac:(lia)) as (next & e1 & E1 & E1' & G).
      destruct (IH _ (o + 1)%nat next _ _ ltac:(lia) G) as (bf & mf & hf & hf' & El1 & El1' & Gf). exists bf, mf, hf, hf'.
      replace (o + S k)%nat with (o + 1 + k)%nat by lia. cbn [inv_loop]. cbn zeta. rewrite (mthen_ok _ _ _ _ _ E1), (mthen_ok _ _ _ _ _ E1').
      destruct G as (Wn & Wn' & _ & _ & _ & _ & _ & _ & _ & _ & _ & _ & Hcn & Hcn' & _). rewrite Net in E1, E1'.
      pose proof (proj1 (mlp_object _ _ _ _ _ Em)) as Li. pose proof (proj1 (mlp_object _ _ _ _ _ Em')) as Li'. rewrite Lr in Hcn, Hcn'. rewrite <- Lh in Hcn'.
      rewrite (Step train o b model h e1 next Tr Wh Hc ltac:(lia)); auto; [|eauto|eauto].
      rewrite (Step train' o b model h' e1 next Tr' Wh' Hc' ltac:(lia)); auto; eauto. }
  destruct (Build n h0 h0 ltac:(lia) W W eq_refl) as (model & e & E & _ & G).
  destruct (Loop (target_n - n)%nat _ n model _ _ ltac:(lia) G) as (b & mf & hf & hf' & L1 & L2 & (Wf & Wf' & hb & hb' & ef & Lb & Lb' & Ef & Ef' & Em & Em' & Lm & Hc & Hc' & Ty)).
  replace (n + (target_n - n))%nat with target_n in * by lia. assert (Nq : (target_n =? n)%nat = false) by (apply Nat.eqb_neq; lia).
  exists mf, hf, hf'. split; [|split; [|split; [|split]]].
  - unfold invariant_mnist. rewrite (mthen_ok _ _ _ _ _ E). cbn [negb]. rewrite (mthen_ok _ _ _ _ _ L1), Nq. reflexivity.
  - unfold invariant_mnist. rewrite (mthen_ok _ _ _ _ _ E). cbn [negb]. rewrite (mthen_ok _ _ _ _ _ L2), Nq. reflexivity.
  - exists hb. rewrite Net. exact Em.
  - intros x. rewrite (call_above b hf hf'); auto.
    + subst hf hf'. rewrite !app_length. lia.
    + intros i Hi. now apply Hc.
    + intros i Hi. subst hf hf'. replace i with (length hb + (i - length hb))%nat at 2 by lia. rewrite get_app_r.
      replace i with (length hb' + (i - length hb))%nat at 1 by lia. now rewrite get_app_r.
    + split; auto. now apply mlp_object in Em.
  - intros B x Hx. destruct (typed_maps _ _ _ _ Wf Ty hf (retrained_refl _) x B Hx) as (y & Ey & Sy). eauto.
Qed.
Print Assumptions C91_fixed_types_lose_training.

Definition demo_rng : nat -> rng := fun order k _ => INR (order + k).
(** A configuration with refinable layers and one with the default layers. *)
Definition small_cfg (t : string) : inv_cfg := mkInvCfg t 784 10 2 2 2 (Some 2) 2 20 (Some "max_abs"%string) (1/2).
Definition add_one_obj (o : obj) : obj :=
  match o with OPiecewise l => OPiecewise (with_w l (tmap (fun t => t + 1) (pw_w l))) | OFunc l => OFunc (with_fw l (tmap (fun t => t + 1) (f_w l))) | _ => o end.
Definition add_one (order model : nat) (h : heap) : heap := map add_one_obj h.
Lemma add_one_weights : changes_weights add_one.
Proof.
  intros order model h. split; [apply map_length|]. intros i Hi. unfold add_one, get.
  assert (E : nth i (map add_one_obj h) null = add_one_obj (nth i h null)) by exact (map_nth add_one_obj h null i). rewrite E. destruct (nth i h null); try apply RwSame; now constructor.
Qed.
Lemma small_usable t : usable (small_cfg t).
Proof. constructor; cbn; try lia; [|lra]. intros name E. injection E as <-. auto. Qed.
Example C91_ex_refined : exists states : nat -> nat * heap,
  invariant_mnist demo_rng (small_cfg "continuous") add_one true 2 5 [] = Ok (states 5%nat) /\
  same_result (call (add_one 4 (fst (states 4%nat)) (snd (states 4%nat))) (fst (states 4%nat)) (one_sample 784 INR))
              (call (snd (states 5%nat)) (fst (states 5%nat)) (one_sample 784 INR)).
Proof.
  destruct (C91_refinement_keeps_training demo_rng (small_cfg "continuous") add_one 2 5 [] (small_usable _) ltac:(now left) ltac:(lia) add_one_weights) as (st & _ & Hs & E).
  { intros i Hi. cbn in Hi. lia. }
  exists st. split; [exact E|]. specialize (Hs 4%nat ltac:(lia)). cbn [Nat.add] in Hs. destruct (st 4%nat) as (m & h), (st 5%nat) as (m' & h'). cbn [fst snd].
  now apply (proj2 Hs 1%nat).
Qed.
Example C91_ex_lost : exists model h h',
  invariant_mnist demo_rng (small_cfg "polynomial") add_one true 2 5 [] = Ok (model, h) /\
  invariant_mnist demo_rng (small_cfg "polynomial") (fun _ _ h => h) true 2 5 [] = Ok (model, h') /\ forall x, call h' model x = call h model x.
Proof.
  destruct (C91_fixed_types_lose_training demo_rng (small_cfg "polynomial") add_one (fun _ _ h => h) 2 5 [] (small_usable _) ltac:(now left) ltac:(lia) add_one_weights) as (m & h & h' & E & E' & _ & Ec & _).
  - intros o m h. apply retrained_refl.
  - intros i Hi. cbn in Hi. lia.
  - exists m, h, h'. auto.
Qed.
