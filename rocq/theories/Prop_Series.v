(** * Polynomial layers and Fourier layers converge as terms are added (C96). *)
From Coq Require Import Reals ZArith List Lia Lra Psatz.
From Verif Require Import Spec Tensor Utils LagrangePolynomial Basis PolynomialLayers Observe
  SumFacts TensorFacts LagrangeFacts LayerFacts LayerProofs Prop_Basis Prop_Product WeierstrassFacts.
Import ListNotations.
Local Open Scope R_scope.

(** [continuous_on a b f] ([WeierstrassFacts]): for every point x of [a, b] and eps > 0 there is d > 0 such that the points of [a, b]
    nearer to x than d have values of [f] nearer to f x than eps.  Nothing is asked of [f] outside the interval. *)

(** The layer [l], with the weights [w], computes Σ_i f o i (x_i) to accuracy [eps] for every batch with entries in [a, b]. *)
Definition approximates (l : func) (w : tensor R) (I O : nat) (a b eps : R) (f : nat -> nat -> R -> R) : Prop :=
  forall x B, shape x = [B; I] -> (forall k i, (k < B)%nat -> (i < I)%nat -> a <= at_ x [k; i] <= b) ->
  exists y, Function_forward (with_fw l w) x = Ok y /\ shape y = [B; O] /\
    forall k o, (k < B)%nat -> (o < O)%nat -> Rabs (at_ y [k; o] - rsum I (fun i => f o i (at_ x [k; i]))) < eps.

Lemma finite_above (P : nat -> nat -> Prop) m : (forall i, (i < m)%nat -> exists n0, forall n, (n0 <= n)%nat -> P i n) ->
  exists n0, forall i n, (i < m)%nat -> (n0 <= n)%nat -> P i n.
Proof.
  induction m as [|m IH]; intros H; [exists 0%nat; intros; lia|].
  destruct IH as (n1 & H1); [intros; apply H; lia|]. destruct (H m ltac:(lia)) as (n2 & H2). exists (Nat.max n1 n2). intros i n Hi Hn.
  destruct (Nat.eq_dec i m) as [->|N]; [apply H2; lia|apply H1; lia].
Qed.
Lemma finite_choose {A} (dft : A) (P : nat -> A -> Prop) m : (forall i, (i < m)%nat -> exists a, P i a) -> exists F : nat -> A, forall i, (i < m)%nat -> P i (F i).
Proof.
  induction m as [|m IH]; intros H; [exists (fun _ => dft); intros; lia|].
  destruct IH as (F & HF); [intros; apply H; lia|]. destruct (H m ltac:(lia)) as (a & Ha).
  exists (fun i => if Nat.eqb i m then a else F i). intros i Hi. destruct (Nat.eqb_spec i m) as [->|N]; [exact Ha|apply HF; lia].
Qed.
Lemma finite_choose2 {A} (dft : A) (P : nat -> nat -> A -> Prop) m k : (forall i j, (i < m)%nat -> (j < k)%nat -> exists a, P i j a) ->
  exists F : nat -> nat -> A, forall i j, (i < m)%nat -> (j < k)%nat -> P i j (F i j).
Proof.
  intros H. destruct (finite_choose (fun _ => dft) (fun i Fi => forall j, (j < k)%nat -> P i j (Fi j)) m) as (F & HF).
  - intros i Hi. apply (finite_choose dft). intros j Hj. now apply H.
  - exists F. auto.
Qed.
Lemma sum_within I (g f : nat -> R) eps : (forall i, (i < I)%nat -> Rabs (g i - f i) < eps / (INR I + 1)) -> 0 < eps -> Rabs (rsum I g - rsum I f) < eps.
Proof.
  intros H He. pose proof (pos_INR I) as PI'. rewrite <- rsum_minus. eapply Rle_lt_trans; [apply rsum_abs|].
  eapply Rle_lt_trans; [apply (rsum_le I _ (fun _ => eps / (INR I + 1))); intros; now apply Rlt_le, H|]. rewrite rsum_const.
  apply (Rmult_lt_reg_r (INR I + 1)); [lra|]. replace (INR I * (eps / (INR I + 1)) * (INR I + 1)) with (INR I * eps) by (field; lra). lra.
Qed.

(** ** Polynomial layers: from some number of nodes on, every accuracy is within reach, on every bounded interval and for every
    value of length. *)
Theorem C96_polynomial_converges : forall I O r f eps, 0 < r -> 0 < eps ->
  (forall o i, (o < O)%nat -> (i < I)%nat -> continuous_on (- r) r (f o i)) ->
  exists n0, forall n len mag draw, (n0 <= n)%nat -> 0 < len ->
  exists w, shape w = [O; I; n] /\ approximates (Polynomial n I O len mag None draw) w I O (- r) r eps f.
Proof.
  intros I O r f eps Hr He C. pose proof (pos_INR I) as PI'.
  assert (E' : 0 < eps / (INR I + 1)) by (apply Rdiv_lt_0_compat; lra).
  destruct (finite_above (fun o n => forall i, (i < I)%nat -> exists p, poly_lt n p /\ forall x, - r <= x <= r -> Rabs (p x - f o i x) < eps / (INR I + 1)) O) as (n0 & H0).
  { intros o Ho. destruct (finite_above (fun i n => exists p, poly_lt n p /\ forall x, - r <= x <= r -> Rabs (p x - f o i x) < eps / (INR I + 1)) I) as (n0 & H0).
    - intros i Hi. now apply weierstrass_on; [|apply C|].
    - exists n0. auto. }
  exists (S n0). intros n len mag draw Hn Hlen.
  destruct (finite_choose2 (fun _ : R => 0) (fun o i p => poly_lt n p /\ forall x, - r <= x <= r -> Rabs (p x - f o i x) < eps / (INR I + 1)) O I) as (p & Hp).
  { intros o i Ho Hi. apply H0; auto; lia. }
  set (q := fun o i => if andb (o <? O)%nat (i <? I)%nat then p o i else (fun _ : R => 0)).
  assert (Q : forall o i, (o < O)%nat -> (i < I)%nat -> q o i = p o i).
  { intros o i Ho Hi. unfold q. apply Nat.ltb_lt in Ho, Hi. now rewrite Ho, Hi. }
  exists (mkT [O; I; n] (fun ix => match ix with [o; i; k] => q o i (len / 2 * lobatto n k) | _ => 0 end)). split; [reflexivity|].
  intros x B Hx Rx. match goal with |- context [with_fw _ ?w] => destruct (C03_polynomial_layer_exact n I O len mag draw w x B q) as (y & E & Hs & Hy) end; auto; [lia| |].
  { intros o i. unfold q. destruct (Nat.ltb_spec o O), (Nat.ltb_spec i I); cbn; try apply poly_lt_zero. now apply Hp. }
  exists y. do 2 (split; [auto|]). intros k o Hk Ho. rewrite Hy by auto. apply sum_within; auto. intros i Hi. rewrite Q by auto. apply Hp; auto.
Qed.
Print Assumptions C96_polynomial_converges.

(** ** Fourier layers *)
Lemma fourier_even len x i : (1 <= i)%nat -> fourier_call len x (2 * i) = cos (2 * PI * INR i * x / len).
Proof.
  intros Hi. unfold fourier_call. destruct (Nat.eqb_spec (2 * i) 0); [lia|]. cbv zeta.
  replace ((2 * i + 1) / 2)%nat with i by (apply (Nat.div_unique _ 2 _ 1); lia). replace ((2 * i) mod 2)%nat with 0%nat by (apply (Nat.mod_unique _ 2 i); lia). reflexivity.
Qed.
Lemma fourier_odd len x i : (1 <= i)%nat -> fourier_call len x (2 * i - 1) = sin (2 * PI * INR i * x / len).
Proof.
  intros Hi. unfold fourier_call. destruct (Nat.eqb_spec (2 * i - 1) 0); [lia|]. cbv zeta.
  replace ((2 * i - 1 + 1) / 2)%nat with i by (apply (Nat.div_unique _ 2 _ 0); lia). replace ((2 * i - 1) mod 2)%nat with 1%nat by (apply (Nat.mod_unique _ 2 (i - 1)); lia). reflexivity.
Qed.
(** Sums of basis functions. *)
Lemma span_term len n c : (c < n)%nat -> forall a, exists w : nat -> R, forall x, a * fourier_call len x c = rsum n (fun k => fourier_call len x k * w k).
Proof.
  intros Hc a. exists (fun k => if Nat.eqb k c then a else 0). intros x. rewrite (rsum_single n c); auto; [rewrite Nat.eqb_refl; ring|].
  intros k Hk Nk. destruct (Nat.eqb_spec k c); [congruence|ring].
Qed.
Lemma span_plus len n g h : (exists w : nat -> R, forall x, g x = rsum n (fun k => fourier_call len x k * w k)) ->
  (exists w : nat -> R, forall x, h x = rsum n (fun k => fourier_call len x k * w k)) ->
  exists w : nat -> R, forall x, g x + h x = rsum n (fun k => fourier_call len x k * w k).
Proof. intros (w & E) (w' & E'). exists (fun k => w k + w' k). intros x. rewrite E, E', <- rsum_plus. apply rsum_ext. intros. ring. Qed.
Lemma span_trig len m g n : trig_lt m g -> (2 * m <= n)%nat ->
  exists w : nat -> R, forall x, g (2 * PI * x / len) = rsum n (fun k => fourier_call len x k * w k).
Proof.
  intros (a & b & E) Hn. enough (H : exists w : nat -> R, forall x, rsum m (fun i => a i * cos (INR i * (2 * PI * x / len)) + b i * sin (INR i * (2 * PI * x / len))) = rsum n (fun k => fourier_call len x k * w k)).
  { destruct H as (w & H). exists w. intros x. now rewrite E. }
  clear E g. induction m as [|m IH]; cbn [rsum].
  - exists (fun _ => 0). intros x. symmetry. apply rsum_zero. intros; ring.
  - apply span_plus; [apply IH; lia|]. destruct m as [|m].
    + destruct (span_term len n 0 ltac:(lia) (2 * a 0%nat)) as (w & Hw). exists w. intros x. rewrite <- Hw. unfold fourier_call. cbn. rewrite (Rmult_0_l (2 * PI * x / len)), cos_0, sin_0. field.
    + apply span_plus.
      * destruct (span_term len n (2 * S m) ltac:(lia) (a (S m))) as (w & Hw). exists w. intros x. rewrite <- Hw, fourier_even by lia. f_equal. f_equal. unfold Rdiv. ring.
      * destruct (span_term len n (2 * S m - 1) ltac:(lia) (b (S m))) as (w & Hw). exists w. intros x. rewrite <- Hw, fourier_odd by lia. f_equal. f_equal. unfold Rdiv. ring.
Qed.
Lemma fourier_link len f eps : 0 < len -> continuous_on (- (len / 2)) (len / 2) f -> f (- (len / 2)) = f (len / 2) -> 0 < eps ->
  exists n0, forall n, (n0 <= n)%nat -> exists w : nat -> R, forall x, - (len / 2) <= x <= len / 2 -> Rabs (rsum n (fun k => fourier_call len x k * w k) - f x) < eps.
Proof.
  intros Hl C Per He. pose proof PI_RGT_0 as P0.
  assert (K : continuous_on (- PI) PI (fun t => f (len / (2 * PI) * t))).
  { intros t eta Ht Heta. assert (M : 0 < len / (2 * PI)) by (apply Rdiv_lt_0_compat; lra). assert (Mp : len / (2 * PI) * PI = len / 2) by (field; lra).
    destruct (C (len / (2 * PI) * t) eta) as (d & Hd & Q); [nra|exact Heta|]. exists (d / (len / (2 * PI))). split; [now apply Rdiv_lt_0_compat|].
    intros u Hu H. apply Q; [nra|]. rewrite <- Rmult_minus_distr_l, Rabs_mult, (Rabs_pos_eq (len / (2 * PI))) by lra.
    apply (Rmult_lt_compat_l (len / (2 * PI))) in H; auto. replace (len / (2 * PI) * (d / (len / (2 * PI)))) with d in H by (field; lra). exact H. }
  destruct (trig_approximation _ K) with (eps := eps) as (m & g & Tg & Ag); auto.
  { cbv beta. replace (len / (2 * PI) * - PI) with (- (len / 2)) by (field; lra). replace (len / (2 * PI) * PI) with (len / 2) by (field; lra). exact Per. }
  exists (2 * m)%nat. intros n Hn. destruct (span_trig len m g n Tg Hn) as (w & Hw). exists w. intros x Hx. rewrite <- Hw.
  assert (M : 0 < 2 * PI / len) by (apply Rdiv_lt_0_compat; lra). assert (Mp : 2 * PI / len * (len / 2) = PI) by (field; lra).
  specialize (Ag (2 * PI * x / len)). replace (2 * PI * x / len) with (2 * PI / len * x) in * by (field; lra). cbv beta in Ag.
  replace (len / (2 * PI) * (2 * PI / len * x)) with x in Ag by (field; lra). apply Ag. nra.
Qed.

(** For continuous functions taking the same value at both ends of the layer's interval, more terms give every accuracy. *)
Theorem C96_fourier_converges : forall I O len f eps, 0 < len -> 0 < eps ->
  (forall o i, (o < O)%nat -> (i < I)%nat -> continuous_on (- (len / 2)) (len / 2) (f o i) /\ f o i (- (len / 2)) = f o i (len / 2)) ->
  exists n0, forall n mag per draw, (n0 <= n)%nat ->
  exists w, shape w = [O; I; n] /\ approximates (FourierSeries n I O len mag per draw) w I O (- (len / 2)) (len / 2) eps f.
Proof.
  intros I O len f eps Hl He C. pose proof (pos_INR I) as PI'.
  assert (E' : 0 < eps / (INR I + 1)) by (apply Rdiv_lt_0_compat; lra).
  set (P := fun o i n (w : nat -> R) => forall x, - (len / 2) <= x <= len / 2 -> Rabs (rsum n (fun k => fourier_call len x k * w k) - f o i x) < eps / (INR I + 1)).
  destruct (finite_above (fun o n => forall i, (i < I)%nat -> exists w, P o i n w) O) as (n0 & H0).
  { intros o Ho. destruct (finite_above (fun i n => exists w, P o i n w) I) as (n0 & H0).
    - intros i Hi. destruct (C o i Ho Hi). now apply fourier_link.
    - exists n0. auto. }
  exists (S n0). intros n mag per draw Hn.
  destruct (finite_choose2 (fun _ : nat => 0) (fun o i w => P o i n w) O I) as (W & HW).
  { intros o i Ho Hi. apply H0; auto; lia. }
  exists (mkT [O; I; n] (fun ix => match ix with [o; i; k] => W o i k | _ => 0 end)). split; [reflexivity|].
  intros x B Hx Rx. unfold with_fw, FourierSeries. cbn [f_n f_basis f_periodicity].
  match goal with |- context [mkFunc n _ _ ?w] => destruct (function_spec n (FourierBasis len) None w x B I O ltac:(lia) eq_refl Hx) as (y & E & Hs & Hy) end.
  exists y. do 2 (split; [auto|]). intros k o Hk Ho. rewrite Hy by auto. apply sum_within; auto. intros i Hi. cbn. apply HW; auto.
Qed.
Print Assumptions C96_fourier_converges.

(** Without that condition no Fourier layer, of any size and with any weights, comes nearer than half the difference of the two end
    values of some link. *)
Theorem C96_fourier_needs_equal_ends : forall I O len f eps n mag per draw w o i, 0 < len -> (1 <= n)%nat -> shape w = [O; I; n] ->
  (o < O)%nat -> (i < I)%nat ->
  approximates (FourierSeries n I O len mag per draw) w I O (- (len / 2)) (len / 2) eps f ->
  Rabs (f o i (len / 2) - f o i (- (len / 2))) < 2 * eps.
Proof.
  intros I O len f eps n mag per draw w o i Hl Hn Hw Ho Hi A.
  set (xs := fun e => mkT [1%nat; I] (fun ix => match ix with [_; j] => if Nat.eqb j i then e else 0 | _ => 0 end)).
  destruct (A (xs (- (len / 2))) 1%nat eq_refl) as (y & E & Hs & Hy).
  { intros k j Hk Hj. cbn. destruct (Nat.eqb j i); lra. }
  destruct (A (xs (len / 2)) 1%nat eq_refl) as (y' & E' & Hs' & Hy').
  { intros k j Hk Hj. cbn. destruct (Nat.eqb j i); lra. }
  destruct (C27_fourier_periodic n I O len mag per draw w (xs (- (len / 2))) (xs (len / 2)) 1) as (z & z' & F & F' & Sz & Tq); auto; [lra| |].
  { intros b j Hb Hj. cbn. destruct (Nat.eqb j i); [exists 1%Z; lra|exists 0%Z; lra]. }
  rewrite E in F. rewrite E' in F'. injection F as <-. injection F' as <-. destruct Tq as (_ & Tq).
  specialize (Tq [0%nat; o]). rewrite Sz in Tq. specialize (Tq ltac:(cbn; tauto || lia)).
  specialize (Hy 0%nat o ltac:(lia) Ho). specialize (Hy' 0%nat o ltac:(lia) Ho). cbn in Hy, Hy'.
  assert (S2 : forall e, rsum I (fun j => f o j (if Nat.eqb j i then e else 0)) = rsum I (fun j => f o j 0) + (f o i e - f o i 0)).
  { intros e. enough (H : rsum I (fun j => f o j (if Nat.eqb j i then e else 0)) - rsum I (fun j => f o j 0) = f o i e - f o i 0) by lra.
    rewrite <- rsum_minus, (rsum_single I i); auto; [now rewrite Nat.eqb_refl|]. intros j Hj Nj. destruct (Nat.eqb_spec j i); [congruence|ring]. }
  rewrite S2 in Hy, Hy'. rewrite Tq in Hy. apply Rabs_def2 in Hy, Hy'. apply Rabs_def1; lra.
Qed.
Print Assumptions C96_fourier_needs_equal_ends.

(** So, for continuous functions, equal end values are what decides. *)
Theorem C96_fourier_iff : forall I O len f mag per draw, 0 < len ->
  (forall o i, (o < O)%nat -> (i < I)%nat -> continuous_on (- (len / 2)) (len / 2) (f o i)) ->
  (forall eps, 0 < eps -> exists n w, (1 <= n)%nat /\ shape w = [O; I; n] /\
     approximates (FourierSeries n I O len mag per draw) w I O (- (len / 2)) (len / 2) eps f) <->
  (forall o i, (o < O)%nat -> (i < I)%nat -> f o i (- (len / 2)) = f o i (len / 2)).
Proof.
  intros I O len f mag per draw Hl C. split.
  - intros H o i Ho Hi. destruct (Req_dec (f o i (- (len / 2))) (f o i (len / 2))) as [E|N]; auto. exfalso.
    assert (P : 0 < Rabs (f o i (len / 2) - f o i (- (len / 2)))) by (apply Rabs_pos_lt; lra).
    destruct (H (Rabs (f o i (len / 2) - f o i (- (len / 2))) / 2) ltac:(lra)) as (n & w & Hn & Hw & A).
    pose proof (C96_fourier_needs_equal_ends I O len f _ n mag per draw w o i Hl Hn Hw Ho Hi A). lra.
  - intros H eps He. destruct (C96_fourier_converges I O len f eps Hl He) as (n0 & Q); [auto|].
    destruct (Q (S n0) mag per draw ltac:(lia)) as (w & Hw & A). exists (S n0), w. split; [lia|]. auto.
Qed.
Print Assumptions C96_fourier_iff.

(** |x| on [-1, 1] is within reach of both kinds of layer; x is not within reach of Fourier layers. *)
Example C96_case : (exists n w, shape w = [1; 1; n]%nat /\ approximates (Polynomial n 1 1 2 1 None (fun _ _ => 0)) w 1 1 (-1) 1 (1/1000) (fun _ _ => Rabs)) /\
  (exists n w, shape w = [1; 1; n]%nat /\ approximates (FourierSeries n 1 1 2 1 None (fun _ _ => 0)) w 1 1 (- (2 / 2)) (2 / 2) (1/1000) (fun _ _ => Rabs)) /\
  forall n w, (1 <= n)%nat -> shape w = [1; 1; n]%nat -> ~ approximates (FourierSeries n 1 1 2 1 None (fun _ _ => 0)) w 1 1 (- (2 / 2)) (2 / 2) 1 (fun _ _ x => x).
Proof.
  assert (C : forall a b, continuous_on a b Rabs).
  { intros a b x eps Hx He. exists eps. split; [exact He|]. intros y _ H. eapply Rle_lt_trans; [apply Rabs_triang_inv2|exact H]. }
  split; [|split].
  - destruct (C96_polynomial_converges 1 1 1 (fun _ _ => Rabs) (1/1000)) as (n0 & H); [lra|lra|intros; apply C|].
    destruct (H n0 2 1 (fun _ _ => 0) (le_n _) ltac:(lra)) as (w & Hw & A). replace (-1) with (- (1)) by ring. eauto.
  - destruct (C96_fourier_converges 1 1 2 (fun _ _ => Rabs) (1/1000)) as (n0 & H); [lra|lra|intros; split; [apply C|apply Rabs_Ropp]|].
    destruct (H n0 1 None (fun _ _ => 0) (le_n _)) as (w & Hw & A). eauto.
  - intros n w Hn Hw A. pose proof (C96_fourier_needs_equal_ends 1 1 2 (fun _ _ x => x) 1 n 1 None (fun _ _ => 0) w 0 0 ltac:(lra) Hn Hw ltac:(lia) ltac:(lia) A) as H.
    cbv beta in H. replace (2 / 2 - - (2 / 2)) with 2 in H by field. rewrite Rabs_pos_eq in H; lra.
Qed.
