(** * C47: multi-head attention and its mask (attentions.py, MultiHeadAttention). *)
From Coq Require Import Reals List Bool Arith Lia Lra.
From Verif Require Import Spec Tensor Convolution Layers Attention ObserveAttention SumFacts TensorFacts AttentionFacts Prop_Attention.
Import ListNotations.
Local Open Scope R_scope.

(** Weights of a MultiHeadAttention of [N] heads of size [d] over [M] features. *)
Record mh_weights (l : multi_head) (N d M : nat) : Prop := mkMHW {
  mw_heads : mh_num_heads l = N; mw_d : mh_d_head l = d;
  mw_query : shape (mh_query_w l) = [(N * d)%nat; M];
  mw_key : shape (mh_key_w l) = [(N * d)%nat; M];
  mw_value : shape (mh_value_w l) = [(N * d)%nat; M] }.

(** The score of key [j] for query [i] of sample [b], in head [h]. *)
Definition head_score (l : multi_head) (d M : nat) (q k : tensor R) (h b i j : nat) : R :=
  rsum d (fun c => affine M (mh_query_w l) (mh_query_b l) (fun m => at_ q [b; i; m]) (h * d + c) *
                   affine M (mh_key_w l) (mh_key_b l) (fun m => at_ k [b; j; m]) (h * d + c)) / sqrt (INR d).

(** What MultiHeadAttention computes.  Row [h * B + b] of attn belongs to head [h] of sample [b]; its mask is that of
    sample [(h * B + b) / N]. *)
Theorem C47_multi_head : forall l N d M q k v mask B Q K,
  mh_weights l N d M -> (1 <= B)%nat -> (1 <= N)%nat -> (1 <= d)%nat -> (1 <= K)%nat ->
  shape q = [B; Q; M] -> shape k = [B; K; M] -> shape v = [B; K; M] -> (forall m, mask = Some m -> shape m = [B; Q; K]) ->
  exists context attn, multi_head_forward l q k v mask = Ok (context, attn) /\
    shape context = [B; Q; (N * d)%nat] /\ shape attn = [(B * N)%nat; Q; K] /\
    forall h b i, (h < N)%nat -> (b < B)%nat -> (i < Q)%nat ->
      let mk j := masked mask [((h * B + b) / N)%nat; i; j] in
      ((exists j, (j < K)%nat /\ mk j = false) ->
       exists a, attends K (fun j => negb (mk j)) (head_score l d M q k h b i) a /\
         (forall j, (j < K)%nat -> at_ attn [(h * B + b)%nat; i; j] = Some (a j)) /\
         (forall c, (c < d)%nat -> at_ context [b; i; (h * d + c)%nat] =
            Some (rsum K (fun j => a j * affine M (mh_value_w l) (mh_value_b l) (fun m => at_ v [b; j; m]) (h * d + c))))) /\
      ((forall j, (j < K)%nat -> mk j = true) ->
         (forall j, (j < K)%nat -> at_ attn [(h * B + b)%nat; i; j] = None) /\
         (forall c, (c < d)%nat -> at_ context [b; i; (h * d + c)%nat] = None)).
Proof.
  intros l N d M q k v mask B Q K [Hn Hdh Swq Swk Swv] HB HN Hd HK Sq Sk Sv Sm. unfold multi_head_forward, size. rewrite Hn, Hdh, Sv. cbn [nth_error rbind].
  destruct (split_heads_ok N d B (mh_query_w l) (mh_query_b l) q Q M HB HN Hd Sq Swq) as (q' & -> & Sq' & Vq). cbn [rbind].
  destruct (split_heads_ok N d B (mh_key_w l) (mh_key_b l) k K M HB HN Hd Sk Swk) as (k' & -> & Sk' & Vk). cbn [rbind].
  destruct (split_heads_ok N d B (mh_value_w l) (mh_value_b l) v K M HB HN Hd Sv Swv) as (v' & -> & Sv' & Vv). cbn [rbind].
  assert (X : exists mask', match mask with None => Ok None | Some m => m <- repeat_mask N m ;; Ok (Some m) end = Ok mask' /\
            (mask' = None -> mask = None) /\
            (forall m', mask' = Some m' -> numel m' = (B * N * Q * K)%nat /\
               forall s i j, (s < B * N)%nat -> (i < Q)%nat -> (j < K)%nat ->
                 exists jx, valid (shape m') jx /\ ravel [(B * N)%nat; Q; K] [s; i; j] = ravel (shape m') jx /\ at_ m' jx = masked mask [(s / N)%nat; i; j])).
  { destruct mask as [m|].
    - destruct (repeat_mask_ok N m B Q K HN (Sm m eq_refl)) as (m' & -> & Nm & Vm). cbn [rbind]. exists (Some m'). split; [reflexivity|].
      split; [discriminate|]. intros m0 E. injection E as <-. split; auto.
    - exists None. split; [reflexivity|]. split; [reflexivity|]. discriminate. }
  destruct X as (mask' & -> & M0 & M1). cbn [rbind].
  destruct (scaled_dot_ok d q' k' v' mask' (B * N) Q K d d Sq' Sk' Sv') as (ctx & attn & mk & -> & Sc & Sa & K0 & K1 & V).
  { intros m Em. destruct (M1 m Em) as (-> & _). ring. }
  cbn [rbind fst snd].
  destruct (join_heads_ok ctx N d B Q HB HN Hd Sc) as (y1 & y2 & y3 & -> & E2 & E3 & S3 & V3). cbn [rbind]. rewrite E2. cbn [rbind]. rewrite E3. cbn [rbind].
  exists y3, attn. split; [reflexivity|]. split; [exact S3|]. split; [exact Sa|]. intros h b i Hh Hb Hi. pose (mk' := fun j => masked mask [((h * B + b) / N)%nat; i; j]).
  assert (Hs : (h * B + b < B * N)%nat) by nia.
  assert (Mk : forall j, (j < K)%nat -> mk (h * B + b)%nat i j = mk' j).
  { intros j Hj. unfold mk'. destruct mask' as [m'|].
    - destruct (M1 m' eq_refl) as (_ & Vm). destruct (Vm (h * B + b)%nat i j Hs Hi Hj) as (jx & V1 & V2 & V4). rewrite <- V4. now apply (K1 m').
    - rewrite K0 by reflexivity. now rewrite M0. }
  destruct (V (h * B + b)%nat i) as (V1 & V2). split.
  - intros (j & Hj & Ej). destruct V1 as (a & Aa & Va & Vc); [exists j; split; auto; now rewrite Mk|].
    exists a. split; [|split; [auto|]].
    + refine (attends_ext _ _ _ _ _ _ _ _ _ _ Aa); auto.
      * intros j' Hj'. now rewrite Mk.
      * intros j' Hj' _. unfold head_score. f_equal. apply rsum_ext. intros c Hc. now rewrite Vq, Vk.
    + intros c Hc. rewrite V3, Vc by auto. f_equal. apply rsum_ext. intros j' Hj'. now rewrite Vv.
  - intros Hall. destruct V2 as (Va & Vc); [lia|intros j Hj; rewrite Mk by auto; now apply Hall|]. split; auto. intros c Hc. now rewrite V3, Vc.
Qed.
Print Assumptions C47_multi_head.

(** With one head, one sample, or a mask shared by the samples, every row uses the mask of its own sample. *)
Theorem C47_own_mask : forall l N d M q k v m B Q K,
  mh_weights l N d M -> (1 <= B)%nat -> (1 <= N)%nat -> (1 <= d)%nat -> (1 <= K)%nat ->
  shape q = [B; Q; M] -> shape k = [B; K; M] -> shape v = [B; K; M] -> shape m = [B; Q; K] ->
  N = 1%nat \/ B = 1%nat \/ (forall b b' i j, (b < B)%nat -> (b' < B)%nat -> (i < Q)%nat -> (j < K)%nat -> at_ m [b; i; j] = at_ m [b'; i; j]) ->
  exists context attn, multi_head_forward l q k v (Some m) = Ok (context, attn) /\
    forall h b i, (h < N)%nat -> (b < B)%nat -> (i < Q)%nat -> (exists j, (j < K)%nat /\ at_ m [b; i; j] = false) ->
      exists a, attends K (fun j => negb (at_ m [b; i; j])) (head_score l d M q k h b i) a /\
        (forall j, (j < K)%nat -> at_ attn [(h * B + b)%nat; i; j] = Some (a j)).
Proof.
  intros l N d M q k v m B Q K Hw HB HN Hd HK Sq Sk Sv Sm Hyp.
  destruct (C47_multi_head l N d M q k v (Some m) B Q K Hw HB HN Hd HK Sq Sk Sv) as (c & a & E & _ & _ & V); [intros m' Em; now injection Em as <-|].
  exists c, a. split; [exact E|]. intros h b i Hh Hb Hi (j & Hj & Ej). destruct (V h b i Hh Hb Hi) as (V1 & _).
  assert (Eq : forall j, (j < K)%nat -> masked (Some m) [((h * B + b) / N)%nat; i; j] = at_ m [b; i; j]).
  { intros j' Hj'. cbn [masked]. destruct Hyp as [->|[->|Hs]].
    - rewrite Nat.div_1_r. replace h with 0%nat by lia. reflexivity.
    - rewrite Nat.mul_1_r, Nat.div_small by lia. replace b with 0%nat by lia. reflexivity.
    - apply Hs; auto. apply Nat.div_lt_upper_bound; nia. }
  destruct V1 as (w & A & Va & _); [exists j; split; auto; now rewrite Eq|]. exists w. split; auto.
  refine (attends_ext _ _ _ _ _ _ _ _ _ _ A); auto. intros j' Hj'. now rewrite Eq.
Qed.
Print Assumptions C47_own_mask.

(** With two or more samples and heads it does not: whatever the weights and inputs, a key hidden from sample 0 alone gets
    a positive weight in the last head of sample 0. *)
Theorem C47_own_mask_refuted : forall l N d M q k v B Q K,
  mh_weights l N d M -> (2 <= B)%nat -> (2 <= N)%nat -> (1 <= d)%nat -> (1 <= Q)%nat -> (1 <= K)%nat ->
  shape q = [B; Q; M] -> shape k = [B; K; M] -> shape v = [B; K; M] ->
  exists m context attn w, shape m = [B; Q; K] /\ (forall i, at_ m [0%nat; i; 0%nat] = true) /\
    multi_head_forward l q k v (Some m) = Ok (context, attn) /\
    at_ attn [((N - 1) * B + 0)%nat; 0%nat; 0%nat] = Some w /\ 0 < w.
Proof.
  intros l N d M q k v B Q K Hw HB HN Hd HQ HK Sq Sk Sv. set (m := mkT [B; Q; K] (fun ix => (Nat.eqb (nth 0 ix 0%nat) 0 && Nat.eqb (nth 2 ix 0%nat) 0)%bool)).
  destruct (C47_multi_head l N d M q k v (Some m) B Q K Hw) as (c & a & E & _ & _ & V); auto; try lia; [intros m' Em; now injection Em as <-|].
  destruct (V (N - 1)%nat 0%nat 0%nat) as (V1 & _); try lia.
  assert (P : (1 <= ((N - 1) * B + 0) / N)%nat) by (apply Nat.div_le_lower_bound; nia).
  assert (F : forall j, masked (Some m) [(((N - 1) * B + 0) / N)%nat; 0%nat; j] = false).
  { intros j. cbn. destruct (Nat.eqb_spec (((N - 1) * B + 0) / N) 0); [lia|reflexivity]. }
  destruct V1 as (w & A & Va & _); [exists 0%nat; split; auto|].
  exists m, c, a, (w 0%nat). split; [reflexivity|]. split; [reflexivity|]. split; [exact E|]. split; [apply Va; lia|].
  apply (attends_pos _ _ _ _ A); auto. now rewrite F.
Qed.
Print Assumptions C47_own_mask_refuted.

(** Both cases occur. *)
Definition demo_heads (N : nat) : multi_head :=
  mkMultiHead N 2 (mkT [N * 2; 3]%nat (fun ix => INR (nth 0 ix 0%nat))) (zeros [N * 2]%nat)
              (mkT [N * 2; 3]%nat (fun ix => INR (nth 1 ix 0%nat))) (zeros [N * 2]%nat) (mkT [N * 2; 3]%nat (fun _ => 1)) (zeros [N * 2]%nat).
Lemma demo_heads_weights N : mh_weights (demo_heads N) N 2 3.
Proof. constructor; reflexivity. Qed.
Example C47_case : exists context attn,
  let x := mkT [1; 5; 3]%nat (fun ix => INR (nth 1 ix 0%nat)) in
  multi_head_forward (demo_heads 4) x x x (Some (mkT [1; 5; 5]%nat (fun ix => Nat.ltb (nth 1 ix 0%nat) (nth 2 ix 0%nat)))) = Ok (context, attn) /\
  at_ attn [2; 0; 0]%nat = Some 1 /\ at_ attn [2; 0; 4]%nat = Some 0.
Proof.
  cbv zeta. set (x := mkT _ (fun ix => INR _)). set (m := mkT _ _).
  destruct (C47_own_mask (demo_heads 4) 4 2 3 x x x m 1 5 5 (demo_heads_weights 4)) as (c & a & E & V); try reflexivity; try lia.
  exists c, a. split; [exact E|]. destruct (V 2%nat 0%nat 0%nat) as (w & A & Va); try lia; [exists 0%nat; split; [lia|reflexivity]|].
  assert (Z : forall j, (1 <= j < 5)%nat -> w j = 0) by (intros j Hj; apply (at_masked _ _ _ _ A); [lia|]; destruct j; [lia|reflexivity]).
  pose proof (at_sum _ _ _ _ A) as S. cbn [rsum] in S. rewrite (Z 1%nat), (Z 2%nat), (Z 3%nat), (Z 4%nat) in S by lia.
  pose proof (Va 0%nat ltac:(lia)) as E0. pose proof (Va 4%nat ltac:(lia)) as E4. cbn [Nat.mul Nat.add] in E0, E4. rewrite E0, E4, (Z 4%nat) by lia.
  split; f_equal; lra.
Qed.
Example C47_refuted_case : exists m context attn w,
  let x := mkT [2; 1; 3]%nat (fun ix => INR (nth 0 ix 0%nat)) in
  shape m = [2; 1; 1]%nat /\ (forall i, at_ m [0; i; 0]%nat = true) /\
  multi_head_forward (demo_heads 2) x x x (Some m) = Ok (context, attn) /\ at_ attn [2; 0; 0]%nat = Some w /\ 0 < w.
Proof. apply (C47_own_mask_refuted (demo_heads 2) 2 2 3 _ _ _ 2 1 1 (demo_heads_weights 2)); try reflexivity; lia. Qed.
