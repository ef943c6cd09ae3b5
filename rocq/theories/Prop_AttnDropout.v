(** * C111: dropout of attention weights in training (attentions.py, RelativeMultiHeadAttention). *)
From Coq Require Import Reals List Bool Arith Lia Lra.
From Verif Require Import Spec Tensor Convolution Layers Attention Dropout ObserveAttention SumFacts TensorFacts AttentionFacts Prop_Relative Prop_Dropout.
Import ListNotations.
Local Open Scope R_scope.

(** Attention weights after dropout: those kept are enlarged. *)
Definition dropped_weight (p : R) (kept : bool) (w : R) : R := if kept then w / (1 - p) else 0.
(** What the module returns for query [i] of sample [b]: an affine map of the values, weighted by [a]. *)
Definition attended (l : relative) (N d K : nat) (v : tensor R) (b : nat) (a : nat -> nat -> R) (o : nat) : R :=
  affine (N * d) (rl_out_w l) (rl_out_b l) (fun x => rsum K (fun j => a (x / d)%nat j * proj_at (N * d) (rl_value_w l) (rl_value_b l) v b j x)) o.

(** Attention weights [a] of the module: for every query the distribution given by its scores. *)
Definition attention_weights (l : relative) (N d Q K B : nat) (q k pos : tensor R) (mask : option (tensor bool)) (a : nat -> nat -> nat -> nat -> R) : Prop :=
  forall h b i, (h < N)%nat -> (b < B)%nat -> (i < Q)%nat ->
    attends K (fun _ => true) (filled mask b i (relative_score l N d Q K q k pos h b i)) (a h b i).

Lemma train_weights l N d q k v pos mask B Q K :
  rl_weights l N d -> (1 <= B)%nat -> (1 <= N)%nat -> (1 <= d)%nat -> (1 <= K)%nat -> (Q <= K + 1)%nat ->
  shape q = [B; Q; (N * d)%nat] -> shape k = [B; K; (N * d)%nat] -> shape v = [B; K; (N * d)%nat] -> shape pos = [B; K; (N * d)%nat] ->
  (forall m, mask = Some m -> shape m = [B; Q; K]) ->
  exists a, attention_weights l N d Q K B q k pos mask a /\
   (exists y, relative_forward l q k v pos mask = Ok y /\ shape y = [B; Q; (N * d)%nat] /\
      forall b i o, (b < B)%nat -> (i < Q)%nat -> at_ y [b; i; o] = Some (attended l N d K v b (fun h j => a h b i j) o)) /\
   forall p keep, exists y, relative_train l p keep q k v pos mask = Ok y /\ shape y = [B; Q; (N * d)%nat] /\
      forall b i o, (b < B)%nat -> (i < Q)%nat ->
        at_ y [b; i; o] = Some (attended l N d K v b (fun h j => a h b i j * ((if keep [b; h; i; j] then 1 else 0) * dropout_scale p)) o).
Proof.
  intros Hw HB HN Hd HK HQ Sq Sk Sv Sp Sm.
  destruct (relative_scores_ok l N d q k pos B Q K Hw HB HN Hd HQ Sq Sk Sp) as (s & Es & Ss & Vs).
  destruct Hw as [HM Hn Hdd Sqw Skw Svw Spw Su Svb Sow].
  unfold relative_train, relative_forward, relative_attention, matmul4_num, size. rewrite Sv, Hn, Hdd, HM. cbn [nth_error rbind]. rewrite Es. cbn [rbind].
  destruct (linear3_ok (rl_value_w l) (rl_value_b l) v _ _ _ _ Sv Svw) as (v1 & -> & Sv1 & Vv1). cbn [rbind].
  destruct (view_heads v1 B K N d HB HN Hd Sv1) as (v2 & -> & Sv2 & Vv2). cbn [rbind].
  rewrite (permute4_ok v2 [0; 2; 1; 3]%nat _ _ _ _ Sv2 eq_refl). cbn [rbind]. destruct (permute_0213 v2 _ _ _ _ Sv2) as (Sv3 & Vv3). set (v3 := permute _ v2) in *.
  assert (F : exists z, match mask with None => Ok s | Some m => fill_scores (unsqueeze 1 m) s end = Ok z /\ shape z = [B; N; Q; K] /\
            forall b h i j, (b < B)%nat -> (h < N)%nat -> (i < Q)%nat -> (j < K)%nat -> at_ z [b; h; i; j] = filled mask b i (relative_score l N d Q K q k pos h b i) j).
  { unfold filled. destruct mask as [m|]; cbn [masked].
    - destruct (fill_scores_ok m s B N Q K (Sm m eq_refl) Ss) as (z & E & Sz & Vz). exists z. split; auto. split; auto. intros. rewrite Vz, Vs by auto. reflexivity.
    - exists s. split; auto. }
  destruct F as (z & -> & Sz & Vz). cbn [rbind].
  assert (Ha : forall h b i, exists w, attends K (fun _ => true) (fun j => at_ z [b; h; i; j]) w /\ forall j, at_ (softmax_last (scores z)) [b; h; i; j] = Some (w j)).
  { intros h b i. destruct (softmax_row_attends K (fun j => at_ (scores z) [b; h; i; j])) as (w & Aw & Ew); [exists 0%nat; split; auto|].
    exists w. split; [exact Aw|]. intros j. cbn [softmax_last at_ scores tmap shape]. rewrite Sz. apply Ew. }
  assert (Sa : shape (softmax_last (scores z)) = [B; N; Q; K]) by exact Sz.
  set (attn := softmax_last (scores z)) in *.
  set (a := fun h b i j => match at_ attn [b; h; i; j] with Some r => r | None => 0 end).
  assert (Va : forall h b i j, at_ attn [b; h; i; j] = Some (a h b i j)).
  { intros h b i j. unfold a. destruct (Ha h b i) as (w & _ & E). now rewrite E. }
  assert (Rest : forall at' a', shape at' = [B; N; Q; K] -> (forall h b i j, at_ at' [b; h; i; j] = Some (a' h b i j)) ->
    exists y, (context <- matmul4_ dotN at' v3 ;; context <- permute_ [0; 2; 1; 3]%nat context ;; context <- view_infer [B] [(N * d)%nat] context ;; Linear_num (rl_out_w l) (rl_out_b l) context) = Ok y /\
      shape y = [B; Q; (N * d)%nat] /\ forall b i o, (b < B)%nat -> (i < Q)%nat -> at_ y [b; i; o] = Some (attended l N d K v b (fun h j => a' h b i j) o)).
  { intros at' a' Sat Vat. destruct (matmul4_ok dotN at' v3 _ _ _ _ _ Sat Sv3) as (c1 & -> & Sc1 & Vc1). cbn [rbind].
    rewrite (permute4_ok c1 [0; 2; 1; 3]%nat _ _ _ _ Sc1 eq_refl). cbn [rbind]. destruct (permute_0213 c1 _ _ _ _ Sc1) as (Sc2 & Vc2). set (c2 := permute _ c1) in *.
    destruct (view_infer_ok c2 [B] [(N * d)%nat] Q) as (c3 & -> & Sc3 & Vc3); [cbn; nia|unfold numel; rewrite Sc2; cbn; ring|]. cbn [rbind app fst] in *.
    unfold Linear_num. rewrite Sow, Sc3. cbn [rev app]. rewrite Nat.eqb_refl. eexists. split; [reflexivity|]. split; [reflexivity|].
    intros b i o Hb Hi. cbn [at_ removelast last app].
    rewrite (dotN_some _ _ _ (fun x => rsum K (fun j => a' (x / d)%nat b i j * proj_at (N * d) (rl_value_w l) (rl_value_b l) v b j x))).
    + cbn [nplus]. reflexivity.
    + intros x Hx. set (h := (x / d)%nat). assert (D : x = (h * d + x mod d)%nat) by (unfold h; rewrite Nat.mul_comm; apply Nat.div_mod; lia).
      assert (Hm : (x mod d < d)%nat) by (apply Nat.mod_upper_bound; lia). assert (Hh : (h < N)%nat) by (apply Nat.div_lt_upper_bound; lia).
      rewrite (Vc3 [b; i; x] [b; i; h; (x mod d)%nat]); [|rewrite Sc2; cbn; auto|rewrite Sc2; cbn [ravel prodn]; rewrite D at 1; ring].
      rewrite Vc2, Vc1, (dotN_some _ _ _ (a' h b i)) by auto. f_equal. apply rsum_ext. intros j Hj. rewrite Vv3, Vv2, Vv1 by auto. rewrite <- D. reflexivity. }
  exists a. split; [|split].
  - intros h b i Hh Hb Hi. destruct (Ha h b i) as (w & Aw & Ew).
    refine (attends_ext _ _ _ _ _ _ _ _ _ _ Aw); auto.
    intros j Hj. pose proof (Va h b i j) as E. rewrite Ew in E. now injection E.
  - destruct (Rest attn a Sa Va) as (y & E & R). exists y. split; [|exact R]. rewrite <- E.
    destruct (matmul4_ dotN attn v3) as [c1|]; [|reflexivity]. cbn [rbind]. destruct (permute_ [0; 2; 1; 3]%nat c1) as [c2|]; [|reflexivity]. cbn [rbind].
    destruct (view_infer [B] [(N * d)%nat] c2); reflexivity.
  - intros p keep. apply (Rest (dropout_num p keep attn) (fun h b i j => a h b i j * ((if keep [b; h; i; j] then 1 else 0) * dropout_scale p)) Sa).
    intros h b i j. cbn [dropout_num at_]. now rewrite Va.
Qed.

Lemma scaled_weight p w (kept : bool) : p < 1 -> w * ((if kept then 1 else 0) * dropout_scale p) = dropped_weight p kept w.
Proof. intros Hp. unfold dropout_scale, dropped_weight. destruct Req_EM_T; [lra|]. destruct kept; unfold Rdiv; ring. Qed.
Lemma attended_ext l N d K v b a a' o : (1 <= d)%nat -> (forall h j, (h < N)%nat -> (j < K)%nat -> a h j = a' h j) -> attended l N d K v b a o = attended l N d K v b a' o.
Proof.
  intros Hd E. unfold attended, affine. f_equal. apply rsum_ext. intros x Hx. f_equal. apply rsum_ext. intros j Hj. rewrite E; auto. apply Nat.div_lt_upper_bound; lia.
Qed.

(** ** Training and evaluation use the same weights, of which training drops some and enlarges the others *)
Theorem C111_training : forall l N d q k v pos mask B Q K,
  rl_weights l N d -> (1 <= B)%nat -> (1 <= N)%nat -> (1 <= d)%nat -> (1 <= K)%nat -> (Q <= K + 1)%nat ->
  shape q = [B; Q; (N * d)%nat] -> shape k = [B; K; (N * d)%nat] -> shape v = [B; K; (N * d)%nat] -> shape pos = [B; K; (N * d)%nat] ->
  (forall m, mask = Some m -> shape m = [B; Q; K]) ->
  exists a, attention_weights l N d Q K B q k pos mask a /\
   (exists y, relative_forward l q k v pos mask = Ok y /\ shape y = [B; Q; (N * d)%nat] /\
      forall b i o, (b < B)%nat -> (i < Q)%nat -> at_ y [b; i; o] = Some (attended l N d K v b (fun h j => a h b i j) o)) /\
   forall p keep, 0 <= p < 1 -> exists y, relative_train l p keep q k v pos mask = Ok y /\ shape y = [B; Q; (N * d)%nat] /\
      forall b i o, (b < B)%nat -> (i < Q)%nat ->
        at_ y [b; i; o] = Some (attended l N d K v b (fun h j => dropped_weight p (keep [b; h; i; j]) (a h b i j)) o).
Proof.
  intros l N d q k v pos mask B Q K Hw HB HN Hd HK HQ Sq Sk Sv Sp Sm.
  destruct (train_weights l N d q k v pos mask B Q K Hw HB HN Hd HK HQ Sq Sk Sv Sp Sm) as (a & A & Ev & Tr). exists a. split; [exact A|]. split; [exact Ev|].
  intros p keep Hp. destruct (Tr p keep) as (y & E & Sy & V). exists y. split; [exact E|]. split; [exact Sy|]. intros b i o Hb Hi. rewrite V by assumption. f_equal.
  apply attended_ext; [exact Hd|]. intros h j Hh Hj. apply scaled_weight. lra.
Qed.
Print Assumptions C111_training.

(** ** On average over the decisions of the dropout nothing changes *)
(** The decisions for one query: head [h], key [j] is decision number [h * K + j]. *)
Lemma mean_scal p n c f : mean p n (fun k => c * f k) = c * mean p n f.
Proof. revert f. induction n as [|n IH]; intros f; cbn [mean]; auto. rewrite !IH. ring. Qed.
Lemma mean_rsum_of p n m (f : nat -> (nat -> bool) -> R) : mean p n (fun k => rsum m (fun i => f i k)) = rsum m (fun i => mean p n (f i)).
Proof. induction m as [|m IH]; cbn [rsum]; [apply mean_const|]. rewrite (mean_plus p n (fun k => rsum m (fun i => f i k)) (f m)), IH. reflexivity. Qed.

Theorem C111_mean : forall l N d K v b a o p, (1 <= d)%nat -> 0 <= p < 1 ->
  mean p (N * K) (fun keep => attended l N d K v b (fun h j => dropped_weight p (keep (h * K + j)%nat) (a h j)) o) = attended l N d K v b a o.
Proof.
  intros l N d K v b a o p Hd Hp. unfold attended, affine. rewrite mean_plus, mean_const. f_equal.
  rewrite (mean_rsum_of p (N * K) (N * d) (fun x keep => rsum K (fun j => dropped_weight p (keep (x / d * K + j)%nat) (a (x / d)%nat j) * proj_at (N * d) (rl_value_w l) (rl_value_b l) v b j x) * at_ (rl_out_w l) [o; x])).
  apply rsum_ext. intros x Hx. assert (Hh : (x / d < N)%nat) by (apply Nat.div_lt_upper_bound; lia).
  rewrite (mean_ext p (N * K) _ (fun keep => at_ (rl_out_w l) [o; x] * rsum K (fun j => dropped_weight p (keep (x / d * K + j)%nat) (a (x / d)%nat j) * proj_at (N * d) (rl_value_w l) (rl_value_b l) v b j x))) by (intros; ring).
  rewrite mean_scal, (mean_rsum_of p (N * K) K (fun j keep => dropped_weight p (keep (x / d * K + j)%nat) (a (x / d)%nat j) * proj_at (N * d) (rl_value_w l) (rl_value_b l) v b j x)).
  rewrite (Rmult_comm (rsum K _)). f_equal. apply rsum_ext. intros j Hj.
  rewrite (mean_single p (N * K) (x / d * K + j) (fun kept => dropped_weight p kept (a (x / d)%nat j) * proj_at (N * d) (rl_value_w l) (rl_value_b l) v b j x)) by nia.
  unfold dropped_weight. field. lra.
Qed.
Print Assumptions C111_mean.

(** ** What is lost: the weights add up to one only on average *)
(** The weights that are left are non-negative and add up to at most 1/(1-p): a context stays within 1/(1-p) times the values. *)
Theorem C111_weights : forall K keys s a p keep, attends K keys s a -> 0 <= p < 1 ->
  (forall j, (j < K)%nat -> 0 <= dropped_weight p (keep j) (a j)) /\
  rsum K (fun j => dropped_weight p (keep j) (a j)) <= / (1 - p) /\
  (forall val M, (forall j, (j < K)%nat -> Rabs (val j) <= M) -> Rabs (rsum K (fun j => dropped_weight p (keep j) (a j) * val j)) <= M / (1 - p)) /\
  mean p K (fun keep => rsum K (fun j => dropped_weight p (keep j) (a j))) = 1.
Proof.
  intros K keys s a p keep A Hp. assert (I0 : 0 < / (1 - p)) by (apply Rinv_0_lt_compat; lra).
  assert (P : forall j, (j < K)%nat -> 0 <= a j) by exact (at_nonneg _ _ _ _ A). pose proof (at_sum _ _ _ _ A) as S1.
  assert (D0 : forall j, (j < K)%nat -> 0 <= dropped_weight p (keep j) (a j) <= a j * / (1 - p)).
  { intros j Hj. specialize (P j Hj). unfold dropped_weight. assert (0 <= a j * / (1 - p)) by (apply Rmult_le_pos; lra). destruct (keep j); unfold Rdiv; lra. }
  assert (Sm : rsum K (fun j => dropped_weight p (keep j) (a j)) <= / (1 - p)).
  { eapply Rle_trans; [apply rsum_le; intros j Hj; apply (D0 j Hj)|]. rewrite rsum_scal_r, S1. lra. }
  split; [intros j Hj; apply (D0 j Hj)|]. split; [exact Sm|]. split.
  - intros val M HM. destruct (Nat.eq_dec K 0) as [->|K0]; [cbn in S1; lra|].
    assert (M0 : 0 <= M) by (eapply Rle_trans; [apply Rabs_pos|apply (HM 0%nat); lia]).
    eapply Rle_trans; [apply rsum_abs|]. apply Rle_trans with (rsum K (fun j => dropped_weight p (keep j) (a j)) * M).
    + rewrite <- rsum_scal_r. apply rsum_le. intros j Hj. specialize (D0 j Hj). specialize (HM j Hj). rewrite Rabs_mult, (Rabs_pos_eq (dropped_weight _ _ _)) by lra. apply Rmult_le_compat_l; lra.
    + unfold Rdiv. rewrite Rmult_comm. apply Rmult_le_compat_l; assumption.
  - rewrite (mean_rsum_of p K K (fun j keep => dropped_weight p (keep j) (a j))). rewrite <- S1. apply rsum_ext. intros j Hj.
    rewrite (mean_single p K j (fun kept => dropped_weight p kept (a j))) by exact Hj. unfold dropped_weight. field. lra.
Qed.
Print Assumptions C111_weights.

(** A query all of whose weights are dropped gets the bias of the last layer, whatever is asked, found and looked at; with
    [dropout_p = 1] all queries do. *)
Theorem C111_all_dropped : forall l N d q k v pos mask B Q K p keep b i,
  rl_weights l N d -> (1 <= B)%nat -> (1 <= N)%nat -> (1 <= d)%nat -> (1 <= K)%nat -> (Q <= K + 1)%nat ->
  shape q = [B; Q; (N * d)%nat] -> shape k = [B; K; (N * d)%nat] -> shape v = [B; K; (N * d)%nat] -> shape pos = [B; K; (N * d)%nat] ->
  (forall m, mask = Some m -> shape m = [B; Q; K]) ->
  (b < B)%nat -> (i < Q)%nat -> p = 1 \/ (0 <= p < 1 /\ forall h j, (h < N)%nat -> (j < K)%nat -> keep [b; h; i; j] = false) ->
  exists y, relative_train l p keep q k v pos mask = Ok y /\ forall o, at_ y [b; i; o] = Some (at_ (rl_out_b l) [o]).
Proof.
  intros l N d q k v pos mask B Q K p keep b i Hw HB HN Hd HK HQ Sq Sk Sv Sp Sm Hb Hi Hp.
  destruct (train_weights l N d q k v pos mask B Q K Hw HB HN Hd HK HQ Sq Sk Sv Sp Sm) as (a & A & _ & Tr). destruct (Tr p keep) as (y & E & Sy & V).
  exists y. split; [exact E|]. intros o. rewrite V by assumption. f_equal. rewrite (attended_ext _ _ _ _ _ _ _ (fun _ _ => 0)); [|exact Hd|].
  - unfold attended, affine. rewrite rsum_zero; [ring|]. intros x Hx. rewrite rsum_zero; [ring|]. intros j Hj. ring.
  - intros h j Hh Hj. destruct Hp as [-> | (Hp & Hk)].
    + unfold dropout_scale. destruct Req_EM_T; [ring|lra].
    + rewrite Hk by assumption. ring.
Qed.
Print Assumptions C111_all_dropped.

(** So a training output is not an affine map of an average of the values, as evaluation outputs are: one key, so that its weight is 1. *)
Theorem C111_average_of_values_refuted : ~ (forall l N d q k v pos mask B Q K p keep,
  rl_weights l N d -> (1 <= B)%nat -> (1 <= N)%nat -> (1 <= d)%nat -> (1 <= K)%nat -> (Q <= K + 1)%nat ->
  shape q = [B; Q; (N * d)%nat] -> shape k = [B; K; (N * d)%nat] -> shape v = [B; K; (N * d)%nat] -> shape pos = [B; K; (N * d)%nat] ->
  (forall m, mask = Some m -> shape m = [B; Q; K]) -> 0 <= p < 1 ->
  exists y a, relative_train l p keep q k v pos mask = Ok y /\
    forall b i, (b < B)%nat -> (i < Q)%nat -> (forall h, (h < N)%nat -> rsum K (a h b i) = 1) /\ forall o, at_ y [b; i; o] = Some (attended l N d K v b (fun h j => a h b i j) o)).
Proof.
  intros H. set (w := mkT [1; 1]%nat (fun _ => 1)). set (z := zeros [1]%nat). set (l := mkRelative 1 1 1 w z w z w z w w w w z). set (x := mkT [1; 1; 1]%nat (fun _ => 1)).
  assert (W : rl_weights l 1 1) by (constructor; reflexivity).
  destruct (H l 1%nat 1%nat x x x x None 1%nat 1%nat 1%nat (1/2) (fun _ => false) W ltac:(lia) ltac:(lia) ltac:(lia) ltac:(lia) ltac:(lia) eq_refl eq_refl eq_refl eq_refl ltac:(intros; discriminate) ltac:(lra)) as (y & a & E & V).
  destruct (C111_all_dropped l 1 1 x x x x None 1 1 1 (1/2) (fun _ => false) 0 0 W ltac:(lia) ltac:(lia) ltac:(lia) ltac:(lia) ltac:(lia) eq_refl eq_refl eq_refl eq_refl ltac:(intros; discriminate) ltac:(lia) ltac:(lia)
    ltac:(right; split; [lra|reflexivity])) as (y' & E' & V'). rewrite E in E'. injection E' as <-.
  destruct (V 0%nat 0%nat ltac:(lia) ltac:(lia)) as (S1 & Vo). specialize (S1 0%nat ltac:(lia)). specialize (Vo 0%nat). rewrite V' in Vo. injection Vo as Vo. cbn in S1.
  unfold attended, affine, proj_at, affine in Vo. cbn in Vo. lra.
Qed.
Print Assumptions C111_average_of_values_refuted.

(** Without dropout training is evaluation. *)
Theorem C111_no_dropout : forall l N d q k v pos mask B Q K,
  rl_weights l N d -> (1 <= B)%nat -> (1 <= N)%nat -> (1 <= d)%nat -> (1 <= K)%nat -> (Q <= K + 1)%nat ->
  shape q = [B; Q; (N * d)%nat] -> shape k = [B; K; (N * d)%nat] -> shape v = [B; K; (N * d)%nat] -> shape pos = [B; K; (N * d)%nat] ->
  (forall m, mask = Some m -> shape m = [B; Q; K]) ->
  exists y y', relative_forward l q k v pos mask = Ok y /\ relative_train l 0 (fun _ => true) q k v pos mask = Ok y' /\ teq y' y.
Proof.
  intros l N d q k v pos mask B Q K Hw HB HN Hd HK HQ Sq Sk Sv Sp Sm.
  destruct (C111_training l N d q k v pos mask B Q K Hw HB HN Hd HK HQ Sq Sk Sv Sp Sm) as (a & A & (y & E & Sy & V) & Tr).
  destruct (Tr 0 (fun _ => true) ltac:(lra)) as (y' & E' & Sy' & V'). exists y, y'. split; [exact E|]. split; [exact E'|]. split; [congruence|].
  intros ix Hix. rewrite Sy' in Hix. destruct ix as [|b [|i [|o [|]]]]; cbn in Hix; try tauto. destruct Hix as (Hb & Hi & _). rewrite V, V' by assumption. f_equal.
  apply attended_ext; [exact Hd|]. intros h j _ _. unfold dropped_weight. field.
Qed.
Print Assumptions C111_no_dropout.

(** A case: the module of C61_case, two queries and three keys, dropout 1/10; the second query loses all its weights. *)
Example C111_case : exists y, let x := mkT [1; 3; 4]%nat (fun ix => INR (nth 1 ix 0%nat)) in let q := mkT [1; 2; 4]%nat (fun ix => INR (nth 2 ix 0%nat)) in
  relative_train demo_relative (1/10) (fun ix => Nat.eqb (nth 2 ix 0%nat) 0) q x x x None = Ok y /\ at_ y [0; 1; 3]%nat = Some 0.
Proof.
  cbv zeta. set (x := mkT [1; 3; 4]%nat _). set (q := mkT [1; 2; 4]%nat _).
  destruct (C111_all_dropped demo_relative 2 2 q x x x None 1 2 3 (1/10) (fun ix => Nat.eqb (nth 2 ix 0%nat) 0) 0 1) as (y & E & V); try lia; try reflexivity;
    [constructor; reflexivity|intros; discriminate|right; split; [lra|reflexivity]|].
  exists y. split; [exact E|]. now rewrite V.
Qed.
