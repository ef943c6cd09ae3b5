(** * C49, C61: relative positions (attentions.py, RelativeMultiHeadAttention). *)
From Coq Require Import Reals List Bool Arith Lia Lra.
From Verif Require Import Spec Tensor Convolution Layers Attention ObserveAttention SumFacts TensorFacts AttentionFacts.
Import ListNotations.
Local Open Scope R_scope.

(** A table of position scores, row [i] moved so that its last column comes to the diagonal. *)
Definition shifted (T1 T2 : nat) (p : nat -> nat -> R) (i j : nat) : R :=
  if Nat.leb (j + T1) (T2 + i) then p i (T1 - 1 - i + j)%nat
  else if Nat.eqb (j + T1) (T2 + i + 1) then 0
  else p (i + 1)%nat (T1 + j - i - T2 - 2)%nat.

Lemma ravel4 a b c d i j k l : ravel [a; b; c; d] [i; j; k; l] = (((i * b + j) * c + k) * d + l)%nat.
Proof. cbn. ring. Qed.

(** The shift keeps the shape; entry by entry it is [shifted] when there is at most one more query than keys. *)
Theorem C49_relative_shift : forall pos B N T1 T2, shape pos = [B; N; T1; T2] ->
  exists y, relative_shift pos = Ok y /\ shape y = [B; N; T1; T2] /\
    ((T1 <= T2 + 1)%nat -> forall b h i j, (b < B)%nat -> (h < N)%nat -> (i < T1)%nat -> (j < T2)%nat ->
       at_ y [b; h; i; j] = shifted T1 T2 (fun i j => at_ pos [b; h; i; j]) i j).
Proof.
  intros pos B N T1 T2 S. unfold relative_shift. rewrite S. cbv zeta. set (pad := mkT [B; N; T1; (T2 + 1)%nat] _).
  destruct (reshape_ok pad [B; N; (T2 + 1)%nat; T1]) as (p1 & -> & S1 & V1); [unfold numel; cbn; ring|]. cbn [rbind].
  set (dr := mkT [B; N; T2; T1] _).
  destruct (reshape_ok dr [B; N; T1; T2]) as (y & -> & Sy & Vy); [unfold numel; cbn; ring|].
  exists y. split; [reflexivity|]. split; [exact Sy|]. intros HT b h i j Hb Hh Hi Hj.
  set (m := (i * T2 + j)%nat). assert (Hm : (m < T1 * T2)%nat) by (unfold m; nia).
  assert (D : m = (m / T1 * T1 + m mod T1)%nat) by (rewrite Nat.mul_comm; apply Nat.div_mod; lia).
  assert (H1 : (m mod T1 < T1)%nat) by (apply Nat.mod_upper_bound; lia).
  assert (H2 : (m / T1 < T2)%nat) by (apply Nat.div_lt_upper_bound; lia).
  rewrite (Vy [b; h; i; j] [b; h; (m / T1)%nat; (m mod T1)%nat]); [|cbn; auto|].
  2:{ unfold dr. cbn [shape]. rewrite !ravel4. unfold m in *. nia. }
  unfold dr at 1. cbn [at_].
  assert (Key : forall r c, (r < T1)%nat -> (c < T2 + 1)%nat -> (r * (T2 + 1) + c = T1 + i * T2 + j)%nat ->
            at_ p1 [b; h; Datatypes.S (m / T1)%nat; (m mod T1)%nat] = at_ pad [b; h; r; c]).
  { intros r c Hr Hc E. apply V1; [cbn; auto|]. unfold pad. cbn [shape]. rewrite !ravel4.
    assert (Datatypes.S (m / T1) * T1 + m mod T1 = r * (T2 + 1) + c)%nat by (unfold m in *; nia). nia. }
  unfold shifted. destruct (Nat.leb_spec (j + T1) (T2 + i)).
  - rewrite (Key i (T1 + j - i)%nat) by nia. unfold pad. cbn [at_].
    replace (T1 + j - i)%nat with (Datatypes.S (T1 - 1 - i + j)) by lia. reflexivity.
  - destruct (Nat.eqb_spec (j + T1) (T2 + i + 1)).
    + rewrite (Key (i + 1)%nat 0%nat) by nia. reflexivity.
    + rewrite (Key (i + 1)%nat (T1 + j - i - (T2 + 1))%nat) by nia. unfold pad. cbn [at_].
      replace (T1 + j - i - (T2 + 1))%nat with (Datatypes.S (T1 + j - i - T2 - 2)) by lia. reflexivity.
Qed.
Print Assumptions C49_relative_shift.

(** With as many queries as keys, the score of a key at or before the query depends on their distance only. *)
Theorem C49_distance : forall pos B N T, shape pos = [B; N; T; T] ->
  exists y, relative_shift pos = Ok y /\ shape y = [B; N; T; T] /\
    forall b h i j, (b < B)%nat -> (h < N)%nat -> (i < T)%nat -> (j < T)%nat ->
      ((j <= i)%nat -> at_ y [b; h; i; j] = at_ pos [b; h; i; (T - 1 - (i - j))%nat]) /\
      (j = (i + 1)%nat -> at_ y [b; h; i; j] = 0) /\
      ((i + 2 <= j)%nat -> at_ y [b; h; i; j] = at_ pos [b; h; (i + 1)%nat; (j - i - 2)%nat]).
Proof.
  intros pos B N T S. destruct (C49_relative_shift pos B N T T S) as (y & E & Sy & V). exists y. split; [exact E|]. split; [exact Sy|].
  intros b h i j Hb Hh Hi Hj. rewrite V by lia. unfold shifted. split; [|split]; intros H.
  - destruct (Nat.leb_spec (j + T) (T + i)); [|lia]. do 2 f_equal. f_equal. f_equal. f_equal. lia.
  - destruct (Nat.leb_spec (j + T) (T + i)); [lia|]. destruct (Nat.eqb_spec (j + T) (T + i + 1)); [reflexivity|lia].
  - destruct (Nat.leb_spec (j + T) (T + i)); [lia|]. destruct (Nat.eqb_spec (j + T) (T + i + 1)); [lia|]. do 2 f_equal. f_equal. f_equal. f_equal. lia.
Qed.
Print Assumptions C49_distance.

Example C49_case : exists y, relative_shift (mkT [2; 3; 4; 4]%nat (fun ix => INR (nth 2 ix 0%nat) * 10 + INR (nth 3 ix 0%nat))) = Ok y /\
  at_ y [1; 2; 2; 0]%nat = 21 /\ at_ y [1; 2; 2; 2]%nat = 23 /\ at_ y [1; 2; 2; 3]%nat = 0 /\ at_ y [1; 2; 0; 3]%nat = 11.
Proof.
  set (pos := mkT _ _). destruct (C49_distance pos 2 3 4 eq_refl) as (y & E & _ & V). exists y. split; [exact E|].
  rewrite (proj1 (V 1 2 2 0 ltac:(lia) ltac:(lia) ltac:(lia) ltac:(lia))%nat) by lia.
  rewrite (proj1 (V 1 2 2 2 ltac:(lia) ltac:(lia) ltac:(lia) ltac:(lia))%nat) by lia.
  rewrite (proj1 (proj2 (V 1 2 2 3 ltac:(lia) ltac:(lia) ltac:(lia) ltac:(lia))%nat)) by lia.
  rewrite (proj2 (proj2 (V 1 2 0 3 ltac:(lia) ltac:(lia) ltac:(lia) ltac:(lia))%nat)) by lia.
  unfold pos. cbn [at_ nth Nat.sub Nat.add INR]. lra.
Qed.

(** ** The whole module *)

Record rl_weights (l : relative) (N d : nat) : Prop := mkRLW {
  rlw_model : rl_d_model l = (N * d)%nat; rlw_heads : rl_num_heads l = N; rlw_d : rl_d_head l = d;
  rlw_q : shape (rl_query_w l) = [(N * d)%nat; (N * d)%nat]; rlw_k : shape (rl_key_w l) = [(N * d)%nat; (N * d)%nat];
  rlw_v : shape (rl_value_w l) = [(N * d)%nat; (N * d)%nat]; rlw_p : shape (rl_pos_w l) = [(N * d)%nat; (N * d)%nat];
  rlw_u : shape (rl_u_bias l) = [N; d]; rlw_vb : shape (rl_v_bias l) = [N; d];
  rlw_out : shape (rl_out_w l) = [(N * d)%nat; (N * d)%nat] }.

(** Component [o] of a projected sequence. *)
Definition proj_at (M : nat) (w bias x : tensor R) (b t o : nat) : R := affine M w bias (fun k => at_ x [b; t; k]) o.

(** Score of key [j] for query [i] in head [h] of sample [b] (before masking): content plus shifted position. *)
Definition relative_score (l : relative) (N d Q K : nat) (q k pos : tensor R) (h b i j : nat) : R :=
  let M := (N * d)%nat in
  let Qp i c := proj_at M (rl_query_w l) (rl_query_b l) q b i (h * d + c) in
  (rsum d (fun c => (Qp i c + at_ (rl_u_bias l) [h; c]) * proj_at M (rl_key_w l) (rl_key_b l) k b j (h * d + c)) +
   shifted Q K (fun i j => rsum d (fun c => (Qp i c + at_ (rl_v_bias l) [h; c]) * rsum M (fun m => at_ pos [b; j; m] * at_ (rl_pos_w l) [(h * d + c)%nat; m]))) i j)
  / sqrt (INR M).

(** Masked positions get the score -1e9. *)
Definition filled (mask : option (tensor bool)) (b i : nat) (s : nat -> R) (j : nat) : R :=
  if masked mask [b; i; j] then - 10 ^ 9 else s j.

Lemma matmul4_ok {A} dot (x : tensor A) y b h n m p : shape x = [b; h; n; m] -> shape y = [b; h; m; p] ->
  exists z, matmul4_ dot x y = Ok z /\ shape z = [b; h; n; p] /\
    forall i l r c, at_ z [i; l; r; c] = dot m (fun k => at_ x [i; l; r; k]) (fun k => at_ y [i; l; k; c]).
Proof. intros Sx Sy. unfold matmul4_. rewrite Sx, Sy, !Nat.eqb_refl. eexists. split; [reflexivity|]. split; [reflexivity|]. reflexivity. Qed.

Lemma bsum_mat f x y B T N d : shape x = [B; T; N; d] -> shape y = [N; d] ->
  exists z, broadcast2 f x y = Ok z /\ shape z = [B; T; N; d] /\
    forall b t h c, (b < B)%nat -> (t < T)%nat -> (h < N)%nat -> (c < d)%nat -> at_ z [b; t; h; c] = f (at_ x [b; t; h; c]) (at_ y [h; c]).
Proof.
  intros Sx Sy. unfold broadcast2. rewrite Sx, Sy. unfold bshape. cbn [rev app bshape_rev]. rewrite !bsize_refl. cbn [rev app].
  eexists. split; [reflexivity|]. split; [reflexivity|]. intros b t h c Hb Ht Hh Hc. cbn [at_].
  unfold bindex. cbn [length Nat.sub skipn bc_list]. now rewrite !bc_id by auto.
Qed.

Lemma bsum4 f x y B T N d : shape x = [B; T; N; d] -> shape y = [B; T; N; d] ->
  exists z, broadcast2 f x y = Ok z /\ shape z = [B; T; N; d] /\
    forall b t h c, (b < B)%nat -> (t < T)%nat -> (h < N)%nat -> (c < d)%nat -> at_ z [b; t; h; c] = f (at_ x [b; t; h; c]) (at_ y [b; t; h; c]).
Proof.
  intros Sx Sy. unfold broadcast2. rewrite Sx, Sy. unfold bshape. cbn [rev app bshape_rev]. rewrite !bsize_refl. cbn [rev app].
  eexists. split; [reflexivity|]. split; [reflexivity|]. intros b t h c Hb Ht Hh Hc. cbn [at_].
  unfold bindex. cbn [length Nat.sub skipn bc_list]. now rewrite !bc_id by auto.
Qed.

Lemma fill_scores_ok m s B N Q K : shape m = [B; Q; K] -> shape s = [B; N; Q; K] ->
  exists z, fill_scores (unsqueeze 1 m) s = Ok z /\ shape z = [B; N; Q; K] /\
    forall b h i j, (b < B)%nat -> (i < Q)%nat -> (j < K)%nat -> at_ z [b; h; i; j] = if at_ m [b; i; j] then - 10 ^ 9 else at_ s [b; h; i; j].
Proof.
  intros Sm Ss. unfold fill_scores, unsqueeze. cbn [shape]. rewrite Sm, Ss. cbn [firstn skipn app]. unfold bshape. cbn [rev app bshape_rev].
  rewrite !bsize_refl, bsize_1. cbn [rev app]. destruct (list_eq_dec Nat.eq_dec [B; N; Q; K] [B; N; Q; K]) as [_|F]; [|now elim F].
  eexists. split; [reflexivity|]. split; [reflexivity|]. intros b h i j Hb Hi Hj. cbn [at_]. unfold bindex. cbn [length Nat.sub skipn bc_list].
  rewrite !bc_id by auto. reflexivity.
Qed.

Lemma relative_scores_ok l N d q k pos B Q K :
  rl_weights l N d -> (1 <= B)%nat -> (1 <= N)%nat -> (1 <= d)%nat -> (Q <= K + 1)%nat ->
  shape q = [B; Q; (N * d)%nat] -> shape k = [B; K; (N * d)%nat] -> shape pos = [B; K; (N * d)%nat] ->
  exists s, relative_scores l q k pos B = Ok s /\ shape s = [B; N; Q; K] /\
    forall b h i j, (b < B)%nat -> (h < N)%nat -> (i < Q)%nat -> (j < K)%nat -> at_ s [b; h; i; j] = relative_score l N d Q K q k pos h b i j.
Proof.
  intros [HM Hn Hdd Sqw Skw Svw Spw Su Svb Sow] HB HN Hd HQ Sq Sk Sp. unfold relative_scores, matmul4. rewrite Hn, Hdd, HM.
  destruct (linear3_ok (rl_query_w l) (rl_query_b l) q _ _ _ _ Sq Sqw) as (q1 & -> & Sq1 & Vq1). cbn [rbind].
  destruct (view_heads q1 B Q N d HB HN Hd Sq1) as (q2 & -> & Sq2 & Vq2). cbn [rbind].
  destruct (linear3_ok (rl_key_w l) (rl_key_b l) k _ _ _ _ Sk Skw) as (k1 & -> & Sk1 & Vk1). cbn [rbind].
  destruct (view_heads k1 B K N d HB HN Hd Sk1) as (k2 & -> & Sk2 & Vk2). cbn [rbind].
  rewrite (permute4_ok k2 [0; 2; 1; 3]%nat _ _ _ _ Sk2 eq_refl). cbn [rbind]. destruct (permute_0213 k2 _ _ _ _ Sk2) as (Sk3 & Vk3). set (k3 := permute _ k2) in *.
  destruct (linear0_3 (rl_pos_w l) pos _ _ _ _ Sp Spw) as (p1 & -> & Sp1 & Vp1). cbn [rbind].
  destruct (view_heads p1 B K N d HB HN Hd Sp1) as (p2 & -> & Sp2 & Vp2). cbn [rbind].
  destruct (bsum_mat Rplus q2 (rl_u_bias l) _ _ _ _ Sq2 Su) as (qu & -> & Squ & Vqu). cbn [rbind].
  rewrite (permute4_ok qu [0; 2; 1; 3]%nat _ _ _ _ Squ eq_refl). cbn [rbind]. destruct (permute_0213 qu _ _ _ _ Squ) as (Squ' & Vqu'). set (qu' := permute _ qu) in *.
  rewrite (permute4_ok k3 [0; 1; 3; 2]%nat _ _ _ _ Sk3 eq_refl). cbn [rbind]. destruct (permute_0132 k3 _ _ _ _ Sk3) as (Sk4 & Vk4). set (k4 := permute _ k3) in *.
  destruct (matmul4_ok dotR qu' k4 _ _ _ _ _ Squ' Sk4) as (cs & -> & Scs & Vcs). cbn [rbind].
  destruct (bsum_mat Rplus q2 (rl_v_bias l) _ _ _ _ Sq2 Svb) as (qv & -> & Sqv & Vqv). cbn [rbind].
  rewrite (permute4_ok qv [0; 2; 1; 3]%nat _ _ _ _ Sqv eq_refl). cbn [rbind]. destruct (permute_0213 qv _ _ _ _ Sqv) as (Sqv' & Vqv'). set (qv' := permute _ qv) in *.
  rewrite (permute4_ok p2 [0; 2; 3; 1]%nat _ _ _ _ Sp2 eq_refl). cbn [rbind]. destruct (permute_0231 p2 _ _ _ _ Sp2) as (Sp3 & Vp3). set (p3 := permute _ p2) in *.
  destruct (matmul4_ok dotR qv' p3 _ _ _ _ _ Sqv' Sp3) as (ps & -> & Sps & Vps). cbn [rbind].
  destruct (C49_relative_shift ps _ _ _ _ Sps) as (sh & -> & Ssh & Vsh). cbn [rbind].
  destruct (bsum4 Rplus cs sh _ _ _ _ Scs Ssh) as (sm & -> & Ssm & Vsm). cbn [rbind].
  eexists. split; [reflexivity|]. split; [exact Ssm|]. intros b h i j Hb Hh Hi Hj. cbn [tmap at_]. rewrite Vsm, Vsh by auto.
  unfold relative_score, Rdiv. cbv zeta. f_equal. f_equal.
  - rewrite Vcs. unfold dotR. apply rsum_ext. intros c Hc. rewrite Vqu', Vqu, Vq2, Vq1, Vk4, Vk3, Vk2, Vk1 by auto. reflexivity.
  - assert (E : forall i j, (i < Q)%nat -> (j < K)%nat -> at_ ps [b; h; i; j] = rsum d (fun c => (proj_at (N * d) (rl_query_w l) (rl_query_b l) q b i (h * d + c) + at_ (rl_v_bias l) [h; c]) *
        rsum (N * d) (fun m => at_ pos [b; j; m] * at_ (rl_pos_w l) [(h * d + c)%nat; m]))).
    { intros i' j' Hi' Hj'. rewrite Vps. unfold dotR. apply rsum_ext. intros c Hc. rewrite Vqv', Vqv, Vq2, Vq1, Vp3, Vp2, Vp1 by auto. reflexivity. }
    unfold shifted. destruct (Nat.leb_spec (j + Q) (K + i)); [apply E; lia|]. destruct (Nat.eqb_spec (j + Q) (K + i + 1)); [reflexivity|]. apply E; lia.
Qed.

(** Every weight is a real number: each row is the distribution given by the scores (a masked score being -1e9, so that no
    row is ever NaN), and the output is an affine map of the averaged values. *)
Theorem C61_relative_attention : forall l N d q k v pos mask B Q K,
  rl_weights l N d -> (1 <= B)%nat -> (1 <= N)%nat -> (1 <= d)%nat -> (1 <= K)%nat -> (Q <= K + 1)%nat ->
  shape q = [B; Q; (N * d)%nat] -> shape k = [B; K; (N * d)%nat] -> shape v = [B; K; (N * d)%nat] -> shape pos = [B; K; (N * d)%nat] ->
  (forall m, mask = Some m -> shape m = [B; Q; K]) ->
  exists y a, relative_forward l q k v pos mask = Ok y /\ shape y = [B; Q; (N * d)%nat] /\
    (forall h b i, (h < N)%nat -> (b < B)%nat -> (i < Q)%nat ->
       attends K (fun _ => true) (filled mask b i (relative_score l N d Q K q k pos h b i)) (a h b i)) /\
    (forall b i o, (b < B)%nat -> (i < Q)%nat -> at_ y [b; i; o] =
       Some (affine (N * d) (rl_out_w l) (rl_out_b l)
               (fun x => rsum K (fun j => a (x / d)%nat b i j * proj_at (N * d) (rl_value_w l) (rl_value_b l) v b j x)) o)).
Proof.
  intros l N d q k v pos mask B Q K Hw HB HN Hd HK HQ Sq Sk Sv Sp Sm.
  destruct (relative_scores_ok l N d q k pos B Q K Hw HB HN Hd HQ Sq Sk Sp) as (s & Es & Ss & Vs).
  destruct Hw as [HM Hn Hdd Sqw Skw Svw Spw Su Svb Sow].
  unfold relative_forward, relative_attention, matmul4_num, size. rewrite Sv, Hn, Hdd, HM. cbn [nth_error rbind]. rewrite Es. cbn [rbind].
  destruct (linear3_ok (rl_value_w l) (rl_value_b l) v _ _ _ _ Sv Svw) as (v1 & -> & Sv1 & Vv1). cbn [rbind].
  destruct (view_heads v1 B K N d HB HN Hd Sv1) as (v2 & -> & Sv2 & Vv2). cbn [rbind].
  rewrite (permute4_ok v2 [0; 2; 1; 3]%nat _ _ _ _ Sv2 eq_refl). cbn [rbind]. destruct (permute_0213 v2 _ _ _ _ Sv2) as (Sv3 & Vv3). set (v3 := permute _ v2) in *.
  assert (F : exists z, match mask with None => Ok s | Some m => fill_scores (unsqueeze 1 m) s end = Ok z /\ shape z = [B; N; Q; K] /\
            forall b h i j, (b < B)%nat -> (h < N)%nat -> (i < Q)%nat -> (j < K)%nat -> at_ z [b; h; i; j] = filled mask b i (relative_score l N d Q K q k pos h b i) j).
  { unfold filled. destruct mask as [m|]; cbn [masked].
    - destruct (fill_scores_ok m s B N Q K (Sm m eq_refl) Ss) as (z & E & Sz & Vz). exists z. split; auto. split; auto. intros. rewrite Vz, Vs by auto. reflexivity.
    - exists s. split; auto. }
  destruct F as (z & -> & Sz & Vz). cbn [rbind].
  assert (Ha : forall h b i, exists w, attends K (fun _ => true) (fun j => at_ z [b; h; i; j]) w /\ forall j, at_ (softmax_last (scores z)) [b; h; i; j] = Some (w j)).
  { intros h b i. destruct (softmax_row_attends K (fun j => at_ (scores z) [b; h; i; j])) as (w & Aw & Ew); [exists 0%nat; split; auto|].
    exists w. split; [exact Aw|]. intros j. cbn [softmax_last at_ scores tmap shape]. rewrite Sz. apply Ew. }
  assert (Sa : shape (softmax_last (scores z)) = [B; N; Q; K]) by exact Sz.
  set (attn := softmax_last (scores z)) in *.
  set (a := fun h b i j => match at_ attn [b; h; i; j] with Some r => r | None => 0 end).
  assert (Va : forall h b i j, at_ attn [b; h; i; j] = Some (a h b i j)).
  { intros h b i j. unfold a. destruct (Ha h b i) as (w & _ & E). now rewrite E. }
  destruct (matmul4_ok dotN attn v3 _ _ _ _ _ Sa Sv3) as (c1 & -> & Sc1 & Vc1). cbn [rbind].
  rewrite (permute4_ok c1 [0; 2; 1; 3]%nat _ _ _ _ Sc1 eq_refl). cbn [rbind]. destruct (permute_0213 c1 _ _ _ _ Sc1) as (Sc2 & Vc2). set (c2 := permute _ c1) in *.
  destruct (view_infer_ok c2 [B] [(N * d)%nat] Q) as (c3 & -> & Sc3 & Vc3); [cbn; nia|unfold numel; rewrite Sc2; cbn; ring|]. cbn [rbind app fst] in *.
  unfold Linear_num. rewrite Sow, Sc3. cbn [rev app]. rewrite Nat.eqb_refl.
  eexists. exists a. split; [reflexivity|]. split; [reflexivity|]. split.
  - intros h b i Hh Hb Hi. destruct (Ha h b i) as (w & Aw & Ew).
    refine (attends_ext _ _ _ _ _ _ _ _ _ _ Aw); auto.
    intros j Hj. pose proof (Va h b i j) as E. rewrite Ew in E. now injection E.
  - intros b i o Hb Hi. cbn [at_ removelast last app].
    rewrite (dotN_some _ _ _ (fun x => rsum K (fun j => a (x / d)%nat b i j * proj_at (N * d) (rl_value_w l) (rl_value_b l) v b j x))).
    + cbn [nplus]. reflexivity.
    + intros x Hx. set (h := (x / d)%nat). assert (D : x = (h * d + x mod d)%nat) by (unfold h; rewrite Nat.mul_comm; apply Nat.div_mod; lia).
      assert (Hm : (x mod d < d)%nat) by (apply Nat.mod_upper_bound; lia). assert (Hh : (h < N)%nat) by (apply Nat.div_lt_upper_bound; lia).
      rewrite (Vc3 [b; i; x] [b; i; h; (x mod d)%nat]); [|rewrite Sc2; cbn; auto|rewrite Sc2; cbn [ravel prodn]; rewrite D at 1; ring].
      rewrite Vc2, Vc1, (dotN_some _ _ _ (a h b i)) by auto. f_equal. apply rsum_ext. intros j Hj. rewrite Vv3, Vv2, Vv1 by auto. rewrite <- D. reflexivity.
Qed.
Print Assumptions C61_relative_attention.

(** Masking only lowers a score to -1e9: every masked key keeps a positive weight; next to an unmasked key of score [s] it is
    [exp (-1e9 - s)] times smaller, and when all keys are masked the weights are uniform. *)
Theorem C61_masked_weights : forall mask b i s K a, (1 <= K)%nat ->
  attends K (fun _ => true) (filled mask b i s) a ->
  (forall j, (j < K)%nat -> 0 < a j) /\
  (forall j j', (j < K)%nat -> (j' < K)%nat -> masked mask [b; i; j] = true -> masked mask [b; i; j'] = false ->
     a j = a j' * exp (- 10 ^ 9 - s j')) /\
  ((forall j, (j < K)%nat -> masked mask [b; i; j] = true) -> forall j, (j < K)%nat -> a j = 1 / INR K).
Proof.
  intros mask b i s K a HK A. split; [|split].
  - intros j Hj. now apply (attends_pos _ _ _ _ A).
  - intros j j' Hj Hj' M M'. pose proof (at_ratio _ _ _ _ A j j' Hj Hj' eq_refl eq_refl) as R. unfold filled in R. rewrite M, M' in R.
    apply (Rmult_eq_reg_r (exp (s j'))); [|apply Rgt_not_eq, exp_pos]. rewrite R, Rmult_assoc, <- exp_plus. f_equal. f_equal. ring.
  - intros Hall. assert (Eq : forall j, (j < K)%nat -> a j = a 0%nat).
    { intros j Hj. pose proof (at_ratio _ _ _ _ A j 0%nat Hj ltac:(lia) eq_refl eq_refl) as R. unfold filled in R.
      rewrite !Hall in R by lia. apply (Rmult_eq_reg_r (exp (- 10 ^ 9))); [exact R|apply Rgt_not_eq, exp_pos]. }
    pose proof (at_sum _ _ _ _ A) as S. rewrite (rsum_ext _ _ (fun _ => a 0%nat)) in S by auto.
    assert (C : forall n x, rsum n (fun _ => x) = INR n * x) by (intros n x; induction n; [cbn; ring|]; rewrite S_INR; cbn [rsum]; rewrite IHn; ring).
    rewrite C in S. assert (0 < INR K) by (apply lt_0_INR; lia). intros j Hj. rewrite Eq by auto. rewrite <- S. field. lra.
Qed.
Print Assumptions C61_masked_weights.

Definition demo_relative : relative :=
  let w := mkT [4; 4]%nat (fun ix => INR (nth 0 ix 0%nat)) in let z := zeros [4]%nat in
  mkRelative 4 2 2 w z w z w z w (mkT [2; 2]%nat (fun _ => 1)) (mkT [2; 2]%nat (fun _ => 2)) w z.
(** Two queries, three keys, everything masked: uniform weights, no NaN. *)
Example C61_case : exists y a,
  let x := mkT [1; 3; 4]%nat (fun ix => INR (nth 1 ix 0%nat)) in let q := mkT [1; 2; 4]%nat (fun ix => INR (nth 2 ix 0%nat)) in
  relative_forward demo_relative q x x x (Some (mkT [1; 2; 3]%nat (fun _ => true))) = Ok y /\
  a 1%nat 0%nat 1%nat 2%nat = 1 / 3 /\
  at_ y [0; 1; 0]%nat = Some (affine 4 (rl_out_w demo_relative) (rl_out_b demo_relative)
     (fun o => rsum 3 (fun j => a (o / 2)%nat 0%nat 1%nat j * proj_at 4 (rl_value_w demo_relative) (rl_value_b demo_relative) x 0 j o)) 0).
Proof.
  cbv zeta. set (x := mkT [1; 3; 4]%nat _). set (q := mkT [1; 2; 4]%nat _). set (m := mkT [1; 2; 3]%nat _).
  destruct (C61_relative_attention demo_relative 2 2 q x x x (Some m) 1 2 3) as (y & a & E & _ & A & V); try lia; try reflexivity;
    [constructor; reflexivity|intros m' Em; now injection Em as <-|].
  exists y, a. split; [exact E|]. split; [|apply V; lia].
  destruct (C61_masked_weights (Some m) 0 1 _ 3 _ ltac:(lia) (A 1 0 1 ltac:(lia) ltac:(lia) ltac:(lia))%nat) as (_ & _ & U).
  rewrite U; [cbn [INR]; f_equal; ring|reflexivity|lia].
Qed.
