(** * Evaluation steps and optimizers of modules.py (C72, C73, C75). *)
From Coq Require Import String Reals ZArith List Bool Lia Lra.
From Verif Require Import Spec Tensor Utils Layers Modules ObserveModules SumFacts TensorFacts.
Import ListNotations.
Local Open Scope R_scope.

(** ** C72: accuracy and cross entropy *)

Lemma argmax_spec n f : (1 <= n)%nat ->
  (argmax_to n f < n)%nat /\ (forall j, (j < n)%nat -> f j <= f (argmax_to n f)) /\ (forall j, (j < argmax_to n f)%nat -> f j < f (argmax_to n f)).
Proof.
  induction n as [|n IH]; intros Hn; [lia|]. cbn [argmax_to]. destruct n as [|n].
  - cbn [argmax_to]. destruct (Rlt_dec (f 0%nat) (f 0%nat)) as [A|_]; [lra|]. split; [lia|]. split; [|lia].
    intros j Hj. replace j with 0%nat by lia. lra.
  - destruct (IH ltac:(lia)) as (L & Mx & St). set (k := argmax_to (S n) f) in *.
    destruct (Rlt_dec (f k) (f (S n))) as [A|A].
    + split; [lia|]. split; intros j Hj.
      * destruct (Nat.eq_dec j (S n)) as [->|]; [lra|]. specialize (Mx j ltac:(lia)). lra.
      * specialize (Mx j ltac:(lia)). lra.
    + split; [lia|]. split; [|exact St]. intros j Hj.
      destruct (Nat.eq_dec j (S n)) as [->|]; [lra|]. apply Mx. lia.
Qed.
Lemma argmax_unique n f k : (1 <= n)%nat ->
  (argmax_to n f = k <-> (k < n)%nat /\ (forall j, (j < n)%nat -> f j <= f k) /\ (forall j, (j < k)%nat -> f j < f k)).
Proof.
  intros Hn. destruct (argmax_spec n f Hn) as (L & Mx & St). split; [intros <-; auto|]. intros (Lk & Mk & Sk).
  destruct (Nat.lt_trichotomy (argmax_to n f) k) as [H|[H|H]]; [|exact H|].
  - specialize (Sk _ H). specialize (Mx k Lk). lra.
  - specialize (St _ H). specialize (Mk _ L). lra.
Qed.

Lemma flatten_at {A} (y : tensor A) b : at_ (flatten y) [b] = entry_at y b.
Proof. unfold flatten, entry_at. cbn [at_ ravel]. cbn [prodn]. now rewrite Nat.mul_1_r, Nat.add_0_r. Qed.

Lemma rsum_ge_one n f k : (k < n)%nat -> (forall i, (i < n)%nat -> 0 <= f i) -> f k <= rsum n f.
Proof.
  intros Hk P. induction n as [|n IH]; [lia|]. cbn [rsum]. destruct (Nat.eq_dec k n) as [->|].
  - pose proof (rsum_nonneg n f (fun i Hi => P i ltac:(lia))). lra.
  - assert (f k <= rsum n f) by (apply IH; [lia|intros; apply P; lia]). specialize (P n ltac:(lia)). lra.
Qed.
Lemma rsum_ge_two n f j k : (j < k)%nat -> (k < n)%nat -> (forall i, (i < n)%nat -> 0 <= f i) -> f j + f k <= rsum n f.
Proof.
  intros Hj Hk P. induction n as [|n IH]; [lia|]. cbn [rsum]. destruct (Nat.eq_dec k n) as [->|].
  - pose proof (rsum_ge_one n f j Hj (fun i Hi => P i ltac:(lia))). lra.
  - assert (f j + f k <= rsum n f) by (apply IH; [lia|intros; apply P; lia]). specialize (P n ltac:(lia)). lra.
Qed.

Lemma fold_rsum f n : forall k, fold_right (fun b acc => f b + acc) 0 (seq k n) = rsum n (fun i => f (k + i)%nat).
Proof.
  induction n as [|n IH]; intros k; cbn [seq fold_right]; [reflexivity|].
  rewrite IH. change (S n) with (1 + n)%nat. rewrite (rsum_add 1 n (fun i => f (k + i)%nat)). cbn [rsum]. rewrite Nat.add_0_r, Rplus_0_l. apply Rplus_eq_compat_l.
  apply rsum_ext. intros i _. f_equal. lia.
Qed.
Lemma filter_all {A} (p : A -> bool) l : (forall x, In x l -> p x = true) -> filter p l = l.
Proof. induction l as [|a l IH]; intros H; cbn; [reflexivity|]. rewrite (H a) by (left; auto). f_equal. apply IH. intros x Hx. apply H. now right. Qed.

(** Loss of one sample: at least 0, and at least ln 2 when the prediction is wrong. *)
Lemma sample_loss y_hat C b k : (k < C)%nat -> - ln (probability y_hat C b k)
    = ln (rsum C (fun c => exp (at_ y_hat [b; c]))) - at_ y_hat [b; k] /\
  0 <= - ln (probability y_hat C b k) /\
  (argmax_to C (fun c => at_ y_hat [b; c]) <> k -> ln 2 <= - ln (probability y_hat C b k)).
Proof.
  intros Hk. set (f := fun c => at_ y_hat [b; c]). set (T := rsum C (fun c => exp (at_ y_hat [b; c]))).
  assert (P : forall i, (i < C)%nat -> 0 <= exp (f i)) by (intros; apply Rlt_le, exp_pos).
  pose proof (rsum_ge_one C (fun c => exp (f c)) k Hk P) as G1. change (rsum C (fun c => exp (f c))) with T in G1. change (at_ y_hat [b; k]) with (f k).
  pose proof (exp_pos (f k)) as E0. assert (T0 : 0 < T) by lra.
  assert (E : - ln (probability y_hat C b k) = ln T - f k).
  { unfold probability. change (at_ y_hat [b; k]) with (f k). fold T. unfold Rdiv. rewrite ln_mult by (try apply Rinv_0_lt_compat; lra).
    rewrite ln_exp, ln_Rinv by lra. lra. }
  split; [exact E|]. rewrite E. split.
  - assert (ln (exp (f k)) <= ln T). { destruct (Req_dec (exp (f k)) T) as [->|]; [lra|]. apply Rlt_le, ln_increasing; lra. }
    rewrite ln_exp in *. lra.
  - intros N. destruct (argmax_spec C f ltac:(lia)) as (L & Mx & _). set (j := argmax_to C f) in *.
    assert (G2 : exp (f j) + exp (f k) <= T).
    { destruct (Nat.lt_trichotomy j k) as [H|[H|H]]; [|contradiction|].
      - exact (rsum_ge_two C (fun c => exp (f c)) j k H Hk P).
      - rewrite Rplus_comm. exact (rsum_ge_two C (fun c => exp (f c)) k j H L P). }
    assert (exp (f k) <= exp (f j)). { destruct (Mx k Hk) as [H|H]; [apply Rlt_le, exp_increasing, H|rewrite H; lra]. }
    assert (ln (2 * exp (f k)) <= ln T). { destruct (Req_dec (2 * exp (f k)) T) as [->|]; [lra|]. apply Rlt_le, ln_increasing; lra. }
    rewrite ln_mult, ln_exp in * by lra. lra.
Qed.

Lemma misses_bound B (p : nat -> bool) (f : nat -> R) m : (forall b, (b < B)%nat -> 0 <= f b) -> (forall b, (b < B)%nat -> p b = false -> m <= f b) ->
  (INR B - INR (length (filter p (seq 0 B)))) * m <= rsum B f.
Proof.
  intros P Q. induction B as [|B IH]; [cbn; lra|]. rewrite seq_S, filter_app, app_length, plus_INR, S_INR. cbn [rsum Nat.add].
  specialize (IH (fun b Hb => P b ltac:(lia)) (fun b Hb => Q b ltac:(lia))).
  cbn [filter]. destruct (p B) eqn:E; cbn [length]; rewrite ?INR_0, ?INR_1.
  - specialize (P B ltac:(lia)). cbn [INR]. lra.
  - specialize (Q B ltac:(lia) E). cbn [INR]. lra.
Qed.
Lemma filter_length_le' {A} (p : A -> bool) l : (length (filter p l) <= length l)%nat.
Proof. induction l as [|a l IH]; cbn; [lia|]. destruct (p a); cbn; lia. Qed.

(** The step logs the fraction of samples whose label is the (first) largest logit, and the mean of minus the logarithm of
    the probability of the label.  Every wrong prediction costs at least ln 2: the two numbers bound each other. *)
Theorem C72_accuracy_and_loss : forall y_hat y name B C,
  shape y_hat = [B; C] -> numel y = B -> (1 <= B)%nat ->
  (forall b, (b < B)%nat -> (0 <= entry_at y b < Z.of_nat C)%Z) ->
  exists loss acc hits,
    classification_eval_step (Ok y_hat) y name
      = Ok (Some loss, [((name ++ "_loss")%string, Some loss); ((name ++ "_acc")%string, Some acc)]) /\
    loss = rsum B (fun b => - ln (probability y_hat C b (Z.to_nat (entry_at y b)))) / INR B /\
    acc = INR (length hits) / INR B /\ NoDup hits /\
    (forall b, In b hits <-> (b < B)%nat /\ predicted y_hat C b (Z.to_nat (entry_at y b))) /\
    0 <= loss /\ 0 <= acc <= 1 /\ (1 - acc) * ln 2 <= loss.
Proof.
  intros y_hat y name B C Sh Ny HB Lab.
  assert (C1 : (1 <= C)%nat) by (specialize (Lab 0%nat ltac:(lia)); lia).
  unfold classification_eval_step. cbn [rbind]. unfold cross_entropy. rewrite Sh. cbn [flatten shape]. rewrite Ny, Nat.eqb_refl. cbn [negb].
  assert (Ok1 : forallb (fun b => label_ok C (at_ (flatten y) [b])) (seq 0 B) = true).
  { apply forallb_forall. intros b Hb. apply in_seq in Hb. rewrite flatten_at. unfold label_ok. specialize (Lab b ltac:(lia)).
    apply orb_true_iff. right. apply andb_true_iff. split; [apply Z.leb_le|apply Z.ltb_lt]; lia. }
  rewrite Ok1.
  assert (Us : filter (fun b => negb (Z.eqb (at_ (flatten y) [b]) (-100))) (seq 0 B) = seq 0 B).
  { apply filter_all. intros b Hb. apply in_seq in Hb. rewrite flatten_at. specialize (Lab b ltac:(lia)). destruct (Z.eqb_spec (entry_at y b) (-100)); [lia|reflexivity]. }
  rewrite Us. rewrite seq_length. rewrite (fold_rsum (fun b => ln (rsum C (fun c => exp (at_ y_hat [b; c]))) - at_ y_hat [b; Z.to_nat (at_ (flatten y) [b])]) B 0).
  set (loss := rsum B _ / INR B).
  assert (El : loss = rsum B (fun b => - ln (probability y_hat C b (Z.to_nat (entry_at y b)))) / INR B).
  { unfold loss. f_equal. apply rsum_ext. intros b Hb. cbn [Nat.add]. rewrite flatten_at. symmetry. apply sample_loss. specialize (Lab b Hb). lia. }
  destruct (seq 0 B) as [|b0 sq] eqn:Es; [apply (f_equal (@length nat)) in Es; rewrite seq_length in Es; cbn in Es; lia|]. rewrite <- Es.
  cbn [rbind]. unfold argmax1. rewrite Sh. destruct (Nat.eqb_spec C 0); [lia|]. cbn [rbind at_].
  destruct (Nat.eqb_spec B 0); [lia|].
  set (p := fun b => Z.eqb (Z.of_nat (argmax_to C (fun c => at_ y_hat [b; c])) - at_ (flatten y) [b]) 0).
  set (hits := filter p (seq 0 B)).
  assert (Pp : forall b, (b < B)%nat -> p b = true <-> argmax_to C (fun c => at_ y_hat [b; c]) = Z.to_nat (entry_at y b)).
  { intros b Hb. unfold p. rewrite flatten_at. specialize (Lab b Hb). rewrite Z.eqb_eq. split; lia. }
  assert (B0 : 0 < INR B) by (apply lt_0_INR; lia).
  exists loss, (INR (length hits) / INR B), hits. split; [reflexivity|]. split; [exact El|]. split; [reflexivity|].
  split; [apply NoDup_filter, seq_NoDup|]. split.
  { intros b. unfold hits. rewrite filter_In, in_seq. split.
    - intros (Hb & E). split; [lia|]. apply Pp in E; [|lia]. apply argmax_unique in E; [exact E|exact C1].
    - intros (Hb & E). split; [lia|]. apply Pp; [exact Hb|]. apply argmax_unique; [exact C1|exact E]. }
  assert (LB : forall b, (b < B)%nat -> 0 <= - ln (probability y_hat C b (Z.to_nat (entry_at y b)))).
  { intros b Hb. apply sample_loss. specialize (Lab b Hb). lia. }
  split. { rewrite El. apply Rmult_le_pos; [apply rsum_nonneg, LB|apply Rlt_le, Rinv_0_lt_compat, B0]. }
  split. { split; [apply Rmult_le_pos; [apply pos_INR|apply Rlt_le, Rinv_0_lt_compat, B0]|].
    apply Rmult_le_reg_r with (INR B); [exact B0|]. unfold Rdiv. rewrite Rmult_assoc, Rinv_l, Rmult_1_r, Rmult_1_l by lra.
    apply le_INR. unfold hits. pose proof (filter_length_le' p (seq 0 B)). rewrite seq_length in *. lia. }
  pose proof (misses_bound B p (fun b => - ln (probability y_hat C b (Z.to_nat (entry_at y b)))) (ln 2) LB) as Mb.
  assert (Mb' : (INR B - INR (length hits)) * ln 2 <= loss * INR B).
  { rewrite El. unfold Rdiv at 1. rewrite Rmult_assoc, Rinv_l, Rmult_1_r by lra. apply Mb. intros b Hb E.
    apply sample_loss; [specialize (Lab b Hb); lia|]. intros A. apply Pp in A; [congruence|exact Hb]. }
  apply Rmult_le_reg_r with (INR B); [exact B0|]. eapply Rle_trans; [|exact Mb'].
  right. field. lra.
Qed.
Print Assumptions C72_accuracy_and_loss.

(** A loss below ln 2 divided by the number of samples means that all predictions are right. *)
Theorem C72_small_loss_all_right : forall y_hat y name B C loss acc,
  shape y_hat = [B; C] -> numel y = B -> (1 <= B)%nat ->
  (forall b, (b < B)%nat -> (0 <= entry_at y b < Z.of_nat C)%Z) ->
  classification_eval_step (Ok y_hat) y name
      = Ok (Some loss, [((name ++ "_loss")%string, Some loss); ((name ++ "_acc")%string, Some acc)]) ->
  loss < ln 2 / INR B -> acc = 1 /\ forall b, (b < B)%nat -> predicted y_hat C b (Z.to_nat (entry_at y b)).
Proof.
  intros y_hat y name B C loss acc Sh Ny HB Lab E Sm.
  destruct (C72_accuracy_and_loss y_hat y name B C Sh Ny HB Lab) as (loss' & acc' & hits & E' & _ & Ea & Nd & Hi & _ & _ & Bd).
  rewrite E in E'. injection E' as <- _ <-.
  assert (B0 : 0 < INR B) by (apply lt_0_INR; lia). assert (L2 : 0 < ln 2) by (rewrite <- ln_1; apply ln_increasing; lra).
  assert (Lh : (length hits <= B)%nat).
  { rewrite <- (seq_length B 0). apply NoDup_incl_length; [exact Nd|]. intros b Hb. apply Hi in Hb. apply in_seq. lia. }
  assert (Full : length hits = B).
  { destruct (Nat.eq_dec (length hits) B) as [|Ne]; [auto|]. exfalso.
    assert (INR (length hits) + 1 <= INR B) by (rewrite <- S_INR; apply le_INR; lia).
    assert ((1 - acc) * ln 2 < ln 2 / INR B) by lra.
    assert ((1 - acc) * ln 2 * INR B < ln 2) as Q.
    { apply Rmult_lt_reg_r with (/ INR B); [apply Rinv_0_lt_compat, B0|]. rewrite Rmult_assoc, Rinv_r, Rmult_1_r by lra. exact H0. }
    rewrite Ea in Q. replace ((1 - INR (length hits) / INR B) * ln 2 * INR B) with ((INR B - INR (length hits)) * ln 2) in Q by (field; lra).
    assert (1 * ln 2 <= (INR B - INR (length hits)) * ln 2) by (apply Rmult_le_compat_r; lra). lra. }
  split; [rewrite Ea, Full; field; lra|]. intros b Hb. apply Hi.
  assert (In b (seq 0 B)) as Hs by (apply in_seq; lia). revert b Hs Hb.
  assert (incl (seq 0 B) hits) as Inc; [|intros b Hs _; exact (Inc b Hs)].
  apply NoDup_length_incl; [exact Nd|rewrite seq_length; lia|]. intros b' Hb'. apply Hi in Hb'. apply in_seq. lia.
Qed.
Print Assumptions C72_small_loss_all_right.

Definition demo_logits : tensor R := mkT [2; 2]%nat (fun ix => match ix with [_; 1%nat] => 2 | _ => 0 end).
Definition demo_labels : tensor Z := mkT [2]%nat (fun ix => match ix with [0%nat] => 1%Z | _ => (-100)%Z end).
(** Labels equal to -100 are left out of the loss but count as wrong predictions, so the bound needs labels in range. *)
Theorem C72_ignored_label_refuted : exists y_hat y loss acc,
  shape y_hat = [2; 2]%nat /\ numel y = 2%nat /\ (forall b, (b < 2)%nat -> (entry_at y b < 2)%Z) /\
  classification_eval_step (Ok y_hat) y "val" = Ok (Some loss, [("val_loss"%string, Some loss); ("val_acc"%string, Some acc)]) /\
  loss < (1 - acc) * ln 2.
Proof.
  assert (Am : argmax_to 2 (fun c => at_ demo_logits [0%nat; c]) = 1%nat).
  { cbn. destruct (Rlt_dec 0 0); [lra|]. destruct (Rlt_dec 0 2); [reflexivity|lra]. }
  assert (Am1 : argmax_to 2 (fun c => at_ demo_logits [1%nat; c]) = 1%nat).
  { cbn. destruct (Rlt_dec 0 0); [lra|]. destruct (Rlt_dec 0 2); [reflexivity|lra]. }
  exists demo_logits, demo_labels, (((ln (0 + exp 0 + exp 2) - 2) + 0) / 1), (1 / 2). split; [reflexivity|]. split; [reflexivity|]. split.
  { intros b Hb. destruct b as [|[|b]]; cbn; lia. }
  split.
  - unfold classification_eval_step, argmax1. cbn [rbind]. change (shape demo_logits) with [2; 2]%nat. change (numel demo_labels) with 2%nat.
    change (cross_entropy demo_logits (flatten demo_labels)) with (Ok (Some ((ln (0 + exp 0 + exp 2) - 2 + 0) / 1))).
    cbn [rbind Nat.eqb at_ seq filter]. rewrite Am, Am1.
    cbn. repeat f_equal; lra.
  - assert (E2 : 4 < exp 2).
    { replace 2 with (1 + 1) by lra. rewrite exp_plus. pose proof (exp_ineq1 1 ltac:(lra)). nra. }
    assert (L : ln (0 + exp 0 + exp 2) < 2 + ln 2 / 2).
    { rewrite exp_0, Rplus_0_l. apply Rlt_le_trans with (ln (exp 2 * (5 / 4))).
      - apply ln_increasing; [lra|]. lra.
      - rewrite ln_mult, ln_exp by (try apply exp_pos; lra). apply Rplus_le_compat_l.
        assert (2 * ln (5 / 4) <= ln 2); [|lra]. replace (2 * ln (5 / 4)) with (ln (5 / 4) + ln (5 / 4)) by lra.
        rewrite <- ln_mult by lra. apply Rlt_le, ln_increasing; lra. }
    lra.
Qed.
Print Assumptions C72_ignored_label_refuted.

(** The hypotheses of [C72_accuracy_and_loss] hold for a batch of three samples with two classes, labels of shape [3, 1]. *)
Example C72_case : let y_hat := mkT [3; 2]%nat (fun ix => match ix with [b; 0%nat] => INR b | _ => 1 end) in
  let y := mkT [3; 1]%nat (fun ix => match ix with [2%nat; _] => 0%Z | _ => 1%Z end) in
  shape y_hat = [3; 2]%nat /\ numel y = 3%nat /\ (forall b, (b < 3)%nat -> (0 <= entry_at y b < Z.of_nat 2)%Z) /\
  predicted y_hat 2 1 0 /\ ~ predicted y_hat 2 1 (Z.to_nat (entry_at y 1)).
Proof.
  cbv zeta. split; [reflexivity|]. split; [reflexivity|]. split.
  { intros b Hb. destruct b as [|[|[|b]]]; cbn; lia. }
  split.
  - split; [lia|]. split; intros j Hj; [|lia]. destruct j as [|[|j]]; [cbn; lra|cbn; lra|exfalso; lia].
  - intros (_ & _ & H). specialize (H 0%nat (le_n 1)).
    match type of H with _ < ?a => change a with 1 in H end. cbn in H. lra.
Qed.

(** ** C73: the loss of the regression step *)

(** Predictions and targets with the same number of entries are compared entry by entry in row-major order, whatever the two
    shapes are; the loss is 0 exactly if they agree. *)
Theorem C73_regression_loss : forall y_hat y name n, numel y_hat = n -> numel y = n -> (1 <= n)%nat ->
  exists loss, regression_eval_step (Ok y_hat) y name = Ok (Some loss, [((name ++ "_loss")%string, Some loss)]) /\
    loss = rsum n (fun i => (entry_at y_hat i - entry_at y i) ^ 2) / INR n /\ 0 <= loss /\
    (loss = 0 <-> forall i, (i < n)%nat -> entry_at y_hat i = entry_at y i).
Proof.
  intros y_hat y name n Nh Ny Hn. unfold regression_eval_step. cbn [rbind]. unfold mse_loss. cbn [flatten shape].
  rewrite Nh, Ny. unfold bsize. rewrite Nat.eqb_refl. destruct (Nat.eqb_spec n 0); [lia|]. cbn [rbind].
  set (loss := rsum n _ / INR n). assert (N0 : 0 < INR n) by (apply lt_0_INR; lia).
  assert (El : loss = rsum n (fun i => (entry_at y_hat i - entry_at y i) ^ 2) / INR n).
  { unfold loss. f_equal. apply rsum_ext. intros i Hi. rewrite !flatten_at. unfold bc. destruct (Nat.eqb_spec n 1); [|reflexivity].
    now replace i with 0%nat by lia. }
  exists loss. split; [reflexivity|]. split; [exact El|].
  assert (P : 0 <= rsum n (fun i => (entry_at y_hat i - entry_at y i) ^ 2)) by (apply rsum_nonneg; intros; apply pow2_ge_0).
  split; [rewrite El; apply Rmult_le_pos; [exact P|apply Rlt_le, Rinv_0_lt_compat, N0]|]. split.
  - intros Z0 i Hi. rewrite El in Z0. assert (Z1 : rsum n (fun i => (entry_at y_hat i - entry_at y i) ^ 2) = 0).
    { apply Rmult_eq_reg_r with (/ INR n); [|apply Rinv_neq_0_compat; lra]. rewrite Rmult_0_l. exact Z0. }
    pose proof (rsum_ge_one n (fun i => (entry_at y_hat i - entry_at y i) ^ 2) i Hi (fun j _ => pow2_ge_0 _)) as G. cbv beta in G.
    rewrite Z1 in G. pose proof (pow2_ge_0 (entry_at y_hat i - entry_at y i)). assert (Q : (entry_at y_hat i - entry_at y i) ^ 2 = 0) by lra.
    destruct (Req_dec (entry_at y_hat i - entry_at y i) 0); [lra|]. exfalso. now apply (pow_nonzero _ 2) in H0.
  - intros Eq. rewrite El. rewrite rsum_zero; [lra|]. intros i Hi. rewrite (Eq i Hi). lra.
Qed.
Print Assumptions C73_regression_loss.

(** A network with one output: prediction [b, 0] is compared with target [b]. *)
Theorem C73_one_output : forall y_hat y name B, shape y_hat = [B; 1]%nat -> shape y = [B] -> (1 <= B)%nat ->
  exists loss, regression_eval_step (Ok y_hat) y name = Ok (Some loss, [((name ++ "_loss")%string, Some loss)]) /\
    loss = rsum B (fun b => (at_ y_hat [b; 0%nat] - at_ y [b]) ^ 2) / INR B.
Proof.
  intros y_hat y name B Sh Sy HB.
  destruct (C73_regression_loss y_hat y name B) as (loss & E & El & _); [unfold numel; rewrite Sh; cbn; lia|unfold numel; rewrite Sy; cbn; lia|exact HB|].
  exists loss. split; [exact E|]. rewrite El. f_equal. apply rsum_ext. intros b Hb. unfold entry_at. rewrite Sh, Sy. cbn [unravel prodn].
  change (1 * 1)%nat with 1%nat. now rewrite !Nat.div_1_r, Nat.mod_1_r.
Qed.
Print Assumptions C73_one_output.

(** Different numbers of entries: an exception, unless one of the two is a single number, which is compared with all. *)
Theorem C73_sizes : forall y_hat y name, numel y_hat <> numel y ->
  (numel y_hat <> 1%nat -> numel y <> 1%nat -> regression_eval_step (Ok y_hat) y name = Err RuntimeError) /\
  (numel y = 1%nat -> (1 <= numel y_hat)%nat -> exists loss, regression_eval_step (Ok y_hat) y name = Ok (Some loss, [((name ++ "_loss")%string, Some loss)]) /\
    loss = rsum (numel y_hat) (fun i => (entry_at y_hat i - entry_at y 0) ^ 2) / INR (numel y_hat)).
Proof.
  intros y_hat y name N. unfold regression_eval_step, mse_loss. cbn [rbind flatten shape]. unfold bsize.
  destruct (Nat.eqb_spec (numel y_hat) (numel y)); [contradiction|]. split.
  - intros H H'. destruct (Nat.eqb_spec (numel y) 1); [contradiction|]. destruct (Nat.eqb_spec (numel y_hat) 1); [contradiction|]. reflexivity.
  - intros H1 H. rewrite H1, Nat.eqb_refl. destruct (Nat.eqb_spec (numel y_hat) 0); [lia|]. cbn [rbind]. eexists. split; [reflexivity|].
    f_equal. apply rsum_ext. intros i Hi. rewrite !flatten_at. unfold bc. destruct (Nat.eqb_spec (numel y_hat) 1); [lia|]. reflexivity.
Qed.
Print Assumptions C73_sizes.

Example C73_case : exists loss, regression_eval_step (Ok (mkT [3; 1]%nat (fun ix => INR (hd 0%nat ix)))) (mkT [3]%nat (fun _ => 1)) "test"
  = Ok (Some loss, [("test_loss"%string, Some loss)]) /\ loss = 2 / 3.
Proof.
  destruct (C73_one_output (mkT [3; 1]%nat (fun ix => INR (hd 0%nat ix))) (mkT [3]%nat (fun _ => 1)) "test" 3 eq_refl eq_refl ltac:(lia)) as (loss & E & El).
  exists loss. split; [exact E|]. rewrite El. cbn. lra.
Qed.

(** ** C75: the optimizer *)

(** A configuration is accepted only with the names "adam" and "lion"; the optimizer updates exactly the parameters of the
    model with the configured learning rate. *)
Theorem C75_optimizer : forall o params r, configure_optimizers o params = Ok r ->
  let opt := match r with OnlyOptimizer q => q | WithScheduler q _ => q end in
  exists lr, op_lr o = Some lr /\
    ((op_name o = Some "adam"%string /\ opt = Adam params lr) \/ (op_name o = Some "lion"%string /\ opt = Lion params lr)).
Proof.
  intros o params r E. unfold configure_optimizers in E. destruct (op_name o) as [name|]; cbn [key rbind] in E; [|discriminate].
  destruct (op_lr o) as [lr|]; cbn [key rbind] in E.
  2:{ destruct (String.eqb name "adam"), (String.eqb name "lion"); discriminate. }
  exists lr. split; [reflexivity|].
  assert (Q : exists q, (if String.eqb name "adam" then Ok (Adam params lr) else if String.eqb name "lion" then Ok (Lion params lr) else Err ValueError) = Ok q /\
     match r with OnlyOptimizer q' => q' | WithScheduler q' _ => q' end = q).
  { destruct (if String.eqb name "adam" then _ else _) as [q|]; cbn [rbind] in E; [|discriminate]. exists q. split; [reflexivity|].
    destruct (op_scheduler o) as [s|]; cbn [key rbind] in E; [|discriminate].
    destruct (String.eqb s "plateau"); [|destruct (String.eqb s "exponential")].
    - destruct (op_patience o), (op_factor o) as [f|]; cbn [key rbind] in E; try discriminate. destruct (Rle_dec 1 f); [discriminate|].
      injection E as <-. reflexivity.
    - destruct (op_gamma o); cbn [key rbind] in E; [|discriminate]. injection E as <-. reflexivity.
    - injection E as <-. reflexivity. }
  destruct Q as (q & Eq & Er). cbv zeta. rewrite Er. destruct (String.eqb_spec name "adam") as [->|]; [left|].
  - injection Eq as <-. auto.
  - destruct (String.eqb_spec name "lion") as [->|]; [|discriminate]. right. injection Eq as <-. auto.
Qed.
Print Assumptions C75_optimizer.

(** A scheduler watches a quantity that the training step logs, namely the loss it returns, and that the validation and test
    steps do not log: for classification and for regression. *)
Theorem C75_monitored : forall o params q s, configure_optimizers o params = Ok (WithScheduler q s) ->
  (forall y_hat y loss lg, training_step classification_eval_step y_hat y = Ok (loss, lg) -> forall v, In (sd_monitor s, v) lg <-> v = loss) /\
  (forall y_hat y loss lg, training_step regression_eval_step y_hat y = Ok (loss, lg) -> forall v, In (sd_monitor s, v) lg <-> v = loss) /\
  (forall y_hat y loss lg, validation_step classification_eval_step y_hat y = Ok (loss, lg) \/ test_step classification_eval_step y_hat y = Ok (loss, lg) ->
     forall v, ~ In (sd_monitor s, v) lg) /\
  (forall y_hat y loss lg, validation_step regression_eval_step y_hat y = Ok (loss, lg) \/ test_step regression_eval_step y_hat y = Ok (loss, lg) ->
     forall v, ~ In (sd_monitor s, v) lg).
Proof.
  intros o params q s E. assert (Mo : sd_monitor s = "train_loss"%string).
  { unfold configure_optimizers in E. destruct (key (op_name o)) as [name|]; cbn [rbind] in E; [|discriminate].
    destruct (if String.eqb name "adam" then _ else _) as [q'|]; cbn [rbind] in E; [|discriminate].
    destruct (op_scheduler o) as [sc|]; cbn [key rbind] in E; [|discriminate].
    destruct (String.eqb sc "plateau"); [|destruct (String.eqb sc "exponential")].
    - destruct (op_patience o), (op_factor o) as [f|]; cbn [key rbind] in E; try discriminate. destruct (Rle_dec 1 f); [discriminate|].
      injection E as _ <-. reflexivity.
    - destruct (op_gamma o); cbn [key rbind] in E; [|discriminate]. injection E as _ <-. reflexivity.
    - discriminate. }
  rewrite Mo.
  assert (Cl : forall y_hat y name loss lg, classification_eval_step y_hat y name = Ok (loss, lg) ->
     exists acc, lg = [((name ++ "_loss")%string, loss); ((name ++ "_acc")%string, acc)]).
  { intros y_hat y name loss lg H. unfold classification_eval_step in H. destruct y_hat as [t|]; cbn [rbind] in H; [|discriminate].
    destruct (cross_entropy t (flatten y)); cbn [rbind] in H; [|discriminate]. destruct (argmax1 t); cbn [rbind] in H; [|discriminate].
    injection H as <- <-. eexists. reflexivity. }
  assert (Rg : forall y_hat y name loss lg, regression_eval_step y_hat y name = Ok (loss, lg) -> lg = [((name ++ "_loss")%string, loss)]).
  { intros y_hat y name loss lg H. unfold regression_eval_step in H. destruct y_hat as [t|]; cbn [rbind] in H; [|discriminate].
    destruct (mse_loss (flatten t) (flatten y)); cbn [rbind] in H; [|discriminate]. injection H as <- <-. reflexivity. }
  split; [|split; [|split]].
  - intros y_hat y loss lg H v. apply Cl in H. destruct H as (acc & ->). cbn. intuition congruence.
  - intros y_hat y loss lg H v. apply Rg in H. subst lg. cbn. intuition congruence.
  - intros y_hat y loss lg [H|H] v; apply Cl in H; destruct H as (acc & ->); cbn; intuition congruence.
  - intros y_hat y loss lg [H|H] v; apply Rg in H; subst lg; cbn; intuition congruence.
Qed.
Print Assumptions C75_monitored.

(** What the three steps log: the same numbers, under names that start with "train_", "val_" and "test_", so that nothing logged in
    one phase overwrites a quantity of another. *)
Definition logs_as (phase : string) (r : res (num * log)) (loss : num) (accuracy : option num) : Prop :=
  exists lg, r = Ok (loss, lg) /\
    lg = ((phase ++ "_loss")%string, loss) :: match accuracy with Some acc => [((phase ++ "_acc")%string, acc)] | None => [] end.
Theorem C75_logged : forall y_hat,
  (forall (y : tensor Z) loss lg, training_step classification_eval_step y_hat y = Ok (loss, lg) ->
     exists acc, logs_as "train" (training_step classification_eval_step y_hat y) loss (Some acc) /\
       logs_as "val" (validation_step classification_eval_step y_hat y) loss (Some acc) /\
       logs_as "test" (test_step classification_eval_step y_hat y) loss (Some acc)) /\
  (forall (y : tensor R) loss lg, training_step regression_eval_step y_hat y = Ok (loss, lg) ->
     logs_as "train" (training_step regression_eval_step y_hat y) loss None /\
     logs_as "val" (validation_step regression_eval_step y_hat y) loss None /\
     logs_as "test" (test_step regression_eval_step y_hat y) loss None).
Proof.
  intros y_hat. split; intros y loss lg H.
  - unfold training_step, validation_step, test_step, logs_as, classification_eval_step in *. destruct y_hat as [t|]; cbn [rbind] in *; [|discriminate].
    destruct (cross_entropy t (flatten y)); cbn [rbind] in *; [|discriminate]. destruct (argmax1 t); cbn [rbind] in *; [|discriminate].
    injection H as <- _. eexists. repeat split; eexists; split; reflexivity.
  - unfold training_step, validation_step, test_step, logs_as, regression_eval_step in *. destruct y_hat as [t|]; cbn [rbind] in *; [|discriminate].
    destruct (mse_loss (flatten t) (flatten y)); cbn [rbind] in *; [|discriminate].
    injection H as <- _. repeat split; eexists; split; reflexivity.
Qed.
Print Assumptions C75_logged.

Example C75_case : configure_optimizers (mkOptCfg (Some "lion"%string) (Some (1 / 1000)) (Some "plateau"%string) (Some 10%nat) (Some (1 / 10)) None) [(3%nat, "w"%string)]
  = Ok (WithScheduler (Lion [(3%nat, "w"%string)] (1 / 1000)) (mkSched (ReduceLROnPlateau 10 (1 / 10)) true "train_loss")).
Proof. unfold configure_optimizers. cbn. destruct (Rle_dec 1 (1 / 10)); [lra|reflexivity]. Qed.
