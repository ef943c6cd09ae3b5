(** * The lazily sized layer normalisation and the table of normalisations: C84. *)
From Coq Require Import String Reals ZArith List Bool Lia Lra Psatz.
From Verif Require Import Spec Tensor SumFacts TensorFacts Normalization NormFacts Observe ObserveNet ContinuityFacts Prop_Continuity LayerNorm.
Import ListNotations.
Local Open Scope R_scope.

(** The entries along the last dimension at the other coordinates [fr]; their mean and mean square. *)
Definition along {A} (x : tensor A) (fr : index) : nat -> A := fun k => at_ x (fr ++ [k]).
Definition mean_of (n : nat) (f : nat -> R) : R := rsum n f / INR n.
Definition mean_square (n : nat) (f : nat -> R) : R := rsum n (fun k => f k * f k) / INR n.
(** A module that took its size [n] from a first input and may have been trained since. *)
Definition sized (n : nat) (m : layer_norm_module) : Prop := exists reg w b, m = Set_ reg w b /\ shape w = [n] /\
  match b with Some b => shape b = [n] | None => True end.

Lemma rev_end (fr : list nat) n : rev (fr ++ [n]) = n :: rev fr.
Proof. now rewrite rev_app_distr. Qed.

Definition normal (n : nat) (v : nat -> R) (k : nat) : R :=
  (v k - mean_of n v) / sqrt (rsum n (fun j => (v j - mean_of n v) ^ 2) / INR n + 1 / 100000).

Lemma layer_norm_end x front n w b : shape x = front ++ [n] -> exists y, layer_norm x n w b (1 / 100000) = Ok y /\ shape y = shape x /\
  forall fr k, along y fr k = normal n (along x fr) k * at_ w [k] + match b with Some b => at_ b [k] | None => 0 end.
Proof.
  intros Hx. unfold layer_norm. rewrite Hx, rev_end, Nat.eqb_refl. eexists. split; [reflexivity|]. split; [reflexivity|].
  intros fr k. unfold along. cbn [at_]. rewrite removelast_last, last_last. reflexivity.
Qed.

Lemma INR_ge1 n : (1 <= n)%nat -> 1 <= INR n.
Proof. intros H. apply le_INR in H. exact H. Qed.
Lemma var_nonneg n v c : 0 <= rsum n (fun j => (v j - c) ^ 2) / INR n.
Proof.
  destruct n as [|n]; [cbn; unfold Rdiv; rewrite Rmult_0_l; lra|].
  pose proof (INR_ge1 (S n) ltac:(lia)). apply Rmult_le_pos; [apply rsum_nonneg; intros; apply pow2_ge_0|]. left. apply Rinv_0_lt_compat. lra.
Qed.
Lemma normal_mean n v : (1 <= n)%nat -> mean_of n (normal n v) = 0.
Proof.
  intros H. pose proof (INR_ge1 n H). unfold mean_of at 1, normal, Rdiv at 2. rewrite rsum_scal_r, rsum_minus, rsum_const.
  unfold mean_of at 1. replace (rsum n v - INR n * (rsum n v / INR n)) with 0 by (field; lra). unfold Rdiv. ring.
Qed.
Lemma normal_square n v : (1 <= n)%nat -> let var := rsum n (fun j => (v j - mean_of n v) ^ 2) / INR n in
  0 <= var /\ mean_square n (normal n v) = var / (var + 1 / 100000).
Proof.
  intros H var. pose proof (INR_ge1 n H). assert (V : 0 <= var) by apply var_nonneg. split; auto.
  unfold mean_square, normal. fold var. set (s := sqrt (var + 1 / 100000)).
  assert (S2 : s * s = var + 1 / 100000) by (apply sqrt_sqrt; lra).
  assert (S0 : s <> 0) by (intros E; rewrite E in S2; lra).
  rewrite (rsum_ext n _ (fun j => (v j - mean_of n v) ^ 2 * / (var + 1 / 100000))) by (intros j _; rewrite <- S2; field; auto).
  rewrite rsum_scal_r. unfold Rdiv at 1. change (rsum n (fun i => (v i - mean_of n v) ^ 2)) with (rsum n (fun j => (v j - mean_of n v) ^ 2)).
  unfold var at 2. unfold Rdiv. ring.
Qed.

(** The first call accepts any input with a last dimension, fixes the size and normalises. *)
Theorem C84_first_call : forall cpu bias x front n, shape x = front ++ [n] ->
  exists y m, lazy_layer_norm cpu (LazyLayerNormLastDim bias) x = (Ok y, m) /\ sized n m /\ shape y = shape x /\
    forall fr, (1 <= n)%nat ->
      mean_of n (along y fr) = 0 /\
      (let v := along x fr in let var := mean_square n (fun k => v k - mean_of n v) in
       mean_square n (along y fr) = var / (var + 1 / 100000)) /\
      (forall k, (k < n)%nat -> Rabs (along y fr k) <= sqrt (INR n)) /\
      (forall j k, along x fr j < along x fr k <-> along y fr j < along y fr k).
Proof.
  intros cpu bias x front n Hx. unfold lazy_layer_norm, LazyLayerNormLastDim. rewrite Hx, rev_end.
  set (w := mkT [n] (fun _ => 1)). set (b := if bias then Some (mkT [n] (fun _ => 0)) else None).
  destruct (layer_norm_end x front n w b Hx) as (y & E & Hs & Hy). rewrite E. exists y, (Set_ cpu w b).
  split; [reflexivity|]. split; [exists cpu, w, b; split; auto; split; auto; unfold b; destruct bias; auto|]. split; [now rewrite <- Hx|].
  assert (Hy' : forall fr k, along y fr k = normal n (along x fr) k).
  { intros fr k. rewrite Hy. unfold w, b. destruct bias; cbn; ring. }
  intros fr Hn. pose proof (INR_ge1 n Hn) as Pn. set (v := along x fr).
  assert (M : mean_of n (along y fr) = 0).
  { unfold mean_of. rewrite (rsum_ext n _ (normal n v)) by (intros; apply Hy'). now apply normal_mean. }
  destruct (normal_square n v Hn) as (V & Sq).
  assert (Q : mean_square n (along y fr) = mean_square n (normal n v)).
  { unfold mean_square. f_equal. apply rsum_ext. intros k _. now rewrite Hy'. }
  set (var := rsum n (fun j => (v j - mean_of n v) ^ 2) / INR n) in *. cbv zeta in V, Sq.
  split; [exact M|]. split.
  { cbv zeta. rewrite Q, Sq. replace (mean_square n (fun k => v k - mean_of n v)) with var; auto.
    unfold var, mean_square. f_equal. apply rsum_ext. intros k _. ring. }
  split.
  - intros k Hk. rewrite <- sqrt_Rsqr_abs. apply sqrt_le_1_alt. unfold Rsqr.
    assert (Le : var / (var + 1 / 100000) <= 1).
    { apply (Rmult_le_reg_r (var + 1 / 100000)); [lra|]. unfold Rdiv at 1. rewrite Rmult_assoc, Rinv_l by lra. lra. }
    assert (T : rsum n (fun k => along y fr k * along y fr k) <= INR n).
    { rewrite Sq in Q. unfold mean_square in Q. apply (Rmult_eq_compat_r (INR n)) in Q. unfold Rdiv at 1 in Q.
      rewrite Rmult_assoc, Rinv_l, Rmult_1_r in Q by lra. rewrite Q. rewrite <- (Rmult_1_l (INR n)) at 2. apply Rmult_le_compat_r; lra. }
    eapply Rle_trans; [|exact T].
    rewrite <- (rsum_delta n k (fun k => along y fr k * along y fr k) Hk) at 1. apply rsum_le. intros i _.
    pose proof (Rle_0_sqr (along y fr i)) as P. unfold Rsqr in P. destruct (Nat.eqb i k); lra.
  - intros j k. rewrite !Hy'. unfold normal. fold var.
    assert (S0 : 0 < sqrt (var + 1 / 100000)) by (apply sqrt_lt_R0; lra).
    change (v j < v k <-> (v j - mean_of n v) / sqrt (var + 1 / 100000) < (v k - mean_of n v) / sqrt (var + 1 / 100000)). split; intros L.
    + apply Rmult_lt_compat_r; [now apply Rinv_0_lt_compat|]. lra.
    + apply Rmult_lt_reg_r in L; [|now apply Rinv_0_lt_compat]. lra.
Qed.
Print Assumptions C84_first_call.

(** After the first call the size is fixed: inputs with this last dimension are accepted whatever their other dimensions, all
    others raise RuntimeError, and no call changes the module.  With trained weights the output is that of a new module,
    scaled and shifted per feature. *)
Theorem C84_later_calls : forall cpu m n x, sized n m ->
  snd (lazy_layer_norm cpu m x) = m /\
  (forall front, shape x = front ++ [n] -> exists y z m', fst (lazy_layer_norm cpu m x) = Ok y /\ shape y = shape x /\
     lazy_layer_norm cpu (LazyLayerNormLastDim true) x = (Ok z, m') /\
     match m with
     | Set_ _ w b => forall fr k, along y fr k = along z fr k * at_ w [k] + match b with Some b => at_ b [k] | None => 0 end
     | Unset _ => False
     end) /\
  ((forall front, shape x <> front ++ [n]) -> fst (lazy_layer_norm cpu m x) = Err RuntimeError).
Proof.
  intros cpu m n x (reg & w & b & -> & Hw & Hb). cbn [lazy_layer_norm]. rewrite Hw. cbn [nth fst snd].
  split; auto. split.
  - intros front Hx. destruct (layer_norm_end x front n w b Hx) as (y & E & Hs & Hy).
    set (w1 := mkT [n] (fun _ => 1)). set (b1 := Some (mkT [n] (fun _ => 0))).
    destruct (layer_norm_end x front n w1 b1 Hx) as (z & Ez & Hsz & Hz).
    exists y, z, (Set_ cpu w1 b1). split; [exact E|]. split; [exact Hs|]. split.
    + unfold lazy_layer_norm, LazyLayerNormLastDim. rewrite Hx, rev_end. fold w1 b1. now rewrite Ez.
    + intros fr k. rewrite Hy, Hz. unfold w1, b1. cbn [at_]. ring.
  - intros Hx. unfold layer_norm. destruct (rev (shape x)) as [|d r] eqn:E; auto.
    destruct (Nat.eqb_spec d n) as [->|]; auto. exfalso. apply (Hx (rev r)). rewrite <- (rev_involutive (shape x)), E. reflexivity.
Qed.
Print Assumptions C84_later_calls.

(** Adding the same number to all entries along the last dimension does not change the output. *)
Theorem C84_shift : forall cpu m n x x' front c, sized n m \/ (exists bias, m = LazyLayerNormLastDim bias) -> (1 <= n)%nat ->
  shape x = front ++ [n] -> shape x' = shape x -> (forall fr k, along x' fr k = along x fr k + c fr) ->
  exists y y', fst (lazy_layer_norm cpu m x) = Ok y /\ fst (lazy_layer_norm cpu m x') = Ok y' /\ shape y = shape y' /\
    forall fr k, along y fr k = along y' fr k.
Proof.
  intros cpu m n x x' front c Hm Hn Hx Hx' Hc. pose proof (INR_ge1 n Hn) as Pn.
  assert (G : forall w b, exists y y', layer_norm x n w b (1 / 100000) = Ok y /\ layer_norm x' n w b (1 / 100000) = Ok y' /\ shape y = shape y' /\
    forall fr k, along y fr k = along y' fr k).
  { intros w b. destruct (layer_norm_end x front n w b Hx) as (y & E & Hs & Hy). rewrite Hx in Hx'.
    destruct (layer_norm_end x' front n w b Hx') as (y' & E' & Hs' & Hy').
    exists y, y'. split; auto. split; auto. split; [congruence|]. intros fr k. rewrite Hy, Hy'. do 2 f_equal.
    assert (Em : mean_of n (along x' fr) = mean_of n (along x fr) + c fr).
    { unfold mean_of. rewrite (rsum_ext n _ (fun k => along x fr k + c fr)) by auto. rewrite rsum_plus, rsum_const. field. lra. }
    unfold normal. rewrite Em, Hc. f_equal; [ring|]. f_equal. do 2 f_equal. apply rsum_ext. intros j _. rewrite Hc. ring. }
  destruct Hm as [(reg & w & b & -> & Hw & Hb)|(bias & ->)]; unfold lazy_layer_norm, LazyLayerNormLastDim.
  - rewrite Hw. cbn [nth fst]. apply G.
  - rewrite Hx', Hx, rev_end. cbn [fst]. apply G.
Qed.
Print Assumptions C84_shift.

(** A sequence of calls; each may find the input on another device. *)
Fixpoint calls (m : layer_norm_module) (l : list (bool * tensor R)) : layer_norm_module :=
  match l with [] => m | (cpu, x) :: l => calls (snd (lazy_layer_norm cpu m x)) l end.

(** [parameters()] is empty until a call has succeeded, so an optimizer made before it never trains the module; afterwards it
    lists the weight and, with bias=True, the bias - provided that first input was on the device parameters are made on;
    otherwise it stays empty for good. *)
Theorem C84_parameters : forall bias l, let m := calls (LazyLayerNormLastDim bias) l in
  (m = LazyLayerNormLastDim bias /\ layer_norm_parameters m = [] /\ Forall (fun c => shape (snd c) = []) l) \/
  exists before cpu x after n, l = before ++ (cpu, x) :: after /\ Forall (fun c => shape (snd c) = []) before /\
    (exists front, shape x = front ++ [n]) /\ sized n m /\
    map shape (layer_norm_parameters m) = if cpu then (if bias then [[n]; [n]] else [[n]]) else [].
Proof.
  intros bias l. cbv zeta. induction l as [|(cpu, x) l IH]; [left; cbn; auto|].
  destruct (rev (shape x)) as [|n r] eqn:E.
  - assert (E0 : shape x = []) by (rewrite <- (rev_involutive (shape x)), E; reflexivity).
    cbn [calls lazy_layer_norm LazyLayerNormLastDim]. rewrite E. cbn [snd].
    destruct IH as [(E1 & P & F)|(before & cpu' & y & after & n & -> & F & Hy & S & P)].
    + left. unfold LazyLayerNormLastDim in *. rewrite E1. auto.
    + right. exists ((cpu, x) :: before), cpu', y, after, n. unfold LazyLayerNormLastDim in *. split; auto.
  - right. exists [], cpu, x, l, n. split; auto. split; auto.
    split; [exists (rev r); rewrite <- (rev_involutive (shape x)), E; reflexivity|].
    cbn [calls lazy_layer_norm LazyLayerNormLastDim]. rewrite E. cbn [snd].
    set (m := Set_ _ _ _). assert (Sm : sized n m).
    { exists cpu, (mkT [n] (fun _ => 1)), (if bias then Some (mkT [n] (fun _ => 0)) else None). split; auto. split; auto. destruct bias; auto. }
    assert (C : calls m l = m).
    { clear - Sm. clearbody m. induction l as [|(c, x) l IH]; [reflexivity|]. cbn [calls]. destruct (C84_later_calls c m n x Sm) as (-> & _). exact IH. }
    rewrite C. split; auto. unfold m. destruct cpu, bias; reflexivity.
Qed.
Print Assumptions C84_parameters.

(** On batches of rows each row is normalised for itself and continuously, so C78 covers networks with this normalisation. *)
Theorem C84_continuous : forall cpu m n, sized n m -> (1 <= n)%nat ->
  rowwise_continuous n n (fun x => fst (lazy_layer_norm cpu m x)).
Proof.
  intros cpu m n (reg & w & b & -> & Hw & Hb) Hn. cbn [lazy_layer_norm fst].
  exists (fun v k => normal n v k * at_ w [k] + match b with Some b => at_ b [k] | None => 0 end). split.
  - intros o Ho. apply cv_plus; [|apply cv_const]. apply cv_mult; [|apply cv_const]. unfold normal, mean_of, Rdiv.
    assert (Cm : continuous_vec n (fun v => rsum n v * / INR n)) by (apply cv_mult; [apply (cv_rsum n n (fun k v => v k)); intros; now apply cv_proj|apply cv_const]).
    apply (cv_div n (fun v => v o - rsum n v * / INR n)).
    + intros v. apply Rgt_not_eq, sqrt_lt_R0. pose proof (var_nonneg n v (rsum n v * / INR n)). unfold Rdiv in *. lra.
    + apply cv_minus; auto. now apply cv_proj.
    + apply cv_sqrt, cv_plus; [|apply cv_const]. apply cv_mult; [|apply cv_const]. apply cv_rsum. intros k Hk. cbn [pow].
      repeat apply cv_mult; try apply cv_const; apply cv_minus; auto; now apply cv_proj.
  - intros x B Hx. destruct (layer_norm_end x [B] n w b Hx) as (y & E & Hs & Hy). exists y. rewrite Hw. cbn [nth]. split; auto. split; [congruence|].
    intros b0 o _ _. exact (Hy [b0] o).
Qed.
Print Assumptions C84_continuous.

(** The table: four names, everything else raises KeyError; every module maps batches of rows to the same shape. *)
Theorem C84_table : forall name,
  (In name ["max_abs"; "max_center"; "l2"; "layer_norm"]%string /\
   exists m, normalization_layers name = Ok m /\
     forall cpu x B n, (1 <= n)%nat -> shape x = [B; n] -> exists y m', normalization_call cpu m x = (Ok y, m') /\ shape y = shape x) \/
  (~ In name ["max_abs"; "max_center"; "l2"; "layer_norm"]%string /\ normalization_layers name = Err KeyError).
Proof.
  intros name. unfold normalization_layers.
  destruct (String.eqb_spec name "max_abs") as [->|N1].
  { left. split; [cbn; auto|]. eexists. split; [reflexivity|]. intros cpu x B n Hn Hx.
    destruct (C78_normalizations_continuous n (1 / 1000000) Hn ltac:(lra)) as ((F & _ & P) & _). destruct (P x B Hx) as (y & E & Hs & _).
    exists y. cbn [normalization_call]. rewrite E. eexists. split; [reflexivity|congruence]. }
  destruct (String.eqb_spec name "max_center") as [->|N2].
  { left. split; [cbn; auto|]. eexists. split; [reflexivity|]. intros cpu x B n Hn Hx.
    destruct (C78_normalizations_continuous n (1 / 1000000) Hn ltac:(lra)) as (_ & _ & (F & _ & P) & _). destruct (P x B Hx) as (y & E & Hs & _).
    exists y. cbn [normalization_call]. rewrite E. eexists. split; [reflexivity|congruence]. }
  destruct (String.eqb_spec name "l2") as [->|N3].
  { left. split; [cbn; auto|]. eexists. split; [reflexivity|]. intros cpu x B n Hn Hx.
    destruct (C78_normalizations_continuous n (1 / 1000000) Hn ltac:(lra)) as (_ & _ & _ & _ & (F & _ & P)). destruct (P x B Hx) as (y & E & Hs & _).
    exists y. cbn [normalization_call]. rewrite E. eexists. split; [reflexivity|congruence]. }
  destruct (String.eqb_spec name "layer_norm") as [->|N4].
  { left. split; [cbn; auto|]. eexists. split; [reflexivity|]. intros cpu x B n Hn Hx.
    destruct (C84_first_call cpu true x [B] n Hx) as (y & m & E & _ & Hs & _).
    exists y. cbn [normalization_call]. rewrite E. eexists. split; [reflexivity|exact Hs]. }
  right. split; auto. cbn. intros [H|[H|[H|[H|[]]]]]; congruence.
Qed.
Print Assumptions C84_table.

Example C84_case : exists y m, lazy_layer_norm true (LazyLayerNormLastDim false) (mkT [2; 3]%nat (fun ix => INR (nth 1 ix 0%nat))) = (Ok y, m) /\
  sized 3 m /\ layer_norm_parameters m = [mkT [3%nat] (fun _ => 1)] /\ mean_of 3 (along y [1%nat]) = 0 /\
  along y [1%nat] 0 < along y [1%nat] 2 /\
  fst (lazy_layer_norm true m (mkT [2; 4]%nat (fun _ => 0))) = Err RuntimeError.
Proof.
  set (x := mkT _ _). destruct (C84_first_call true false x [2%nat] 3 eq_refl) as (y & m & E & S & Hs & P).
  exists y, m. split; auto. split; auto.
  assert (Em : m = Set_ true (mkT [3%nat] (fun _ => 1)) None) by (unfold lazy_layer_norm, LazyLayerNormLastDim in E; cbn [x shape rev app] in E; congruence).
  split; [now rewrite Em|]. destruct (P [1%nat] ltac:(lia)) as (M & _ & _ & Lt). split; auto. split.
  - apply Lt. unfold along, x. simpl. lra.
  - apply (C84_later_calls true m 3 (mkT [2; 4]%nat (fun _ => 0)) S). intros front H. cbn [shape] in H.
    apply (f_equal (@rev nat)) in H. rewrite rev_end in H. discriminate H.
Qed.
