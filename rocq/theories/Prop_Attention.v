(** * C46: attention weights are distributions and contexts convex combinations (attentions.py). *)
From Coq Require Import Reals List Bool Arith Lia Lra Permutation.
From Verif Require Import Spec Tensor Convolution Layers Attention ObserveAttention SumFacts TensorFacts AttentionFacts.
Import ListNotations.
Local Open Scope R_scope.

(** ScaledDotProductAttention: for every sample and query the weights are the softmax, over the keys that are not
    masked, of the scaled dot products; the context is the weighted sum of the values.  If all keys are masked, every
    weight and every component of the context is NaN. *)
Theorem C46_scaled_dot_product : forall dim q k v mask B Q K D Dv,
  (1 <= dim)%nat -> (1 <= K)%nat -> shape q = [B; Q; D] -> shape k = [B; K; D] -> shape v = [B; K; Dv] ->
  (forall m, mask = Some m -> shape m = [B; Q; K]) ->
  exists context attn, scaled_dot_forward dim q k v mask = Ok (context, attn) /\
    shape context = [B; Q; Dv] /\ shape attn = [B; Q; K] /\
    forall b i, (b < B)%nat -> (i < Q)%nat ->
      ((exists j, (j < K)%nat /\ masked mask [b; i; j] = false) ->
       exists a, attends K (fun j => negb (masked mask [b; i; j]))
                           (fun j => rsum D (fun c => at_ q [b; i; c] * at_ k [b; j; c]) / sqrt (INR dim)) a /\
         (forall j, (j < K)%nat -> at_ attn [b; i; j] = Some (a j)) /\
         (forall c, (c < Dv)%nat -> at_ context [b; i; c] = Some (rsum K (fun j => a j * at_ v [b; j; c])))) /\
      ((forall j, (j < K)%nat -> masked mask [b; i; j] = true) ->
         (forall j, (j < K)%nat -> at_ attn [b; i; j] = None) /\ (forall c, (c < Dv)%nat -> at_ context [b; i; c] = None)).
Proof.
  intros dim q k v mask B Q K D Dv Hd HK Sq Sk Sv Sm.
  destruct (scaled_dot_ok dim q k v mask B Q K D Dv Sq Sk Sv) as (ctx & attn & mk & E & Sc & Sa & M0 & M1 & V).
  { intros m Em. unfold numel. rewrite (Sm m Em). cbn. lia. }
  exists ctx, attn. do 3 (split; [assumption|]). intros b i Hb Hi. destruct (V b i) as (V1 & V2).
  assert (Mk : forall j, (j < K)%nat -> mk b i j = masked mask [b; i; j]).
  { intros j Hj. destruct mask as [m|]; [|now apply M0]. cbn. apply (M1 m eq_refl); rewrite (Sm m eq_refl); [cbn; lia|reflexivity]. }
  split.
  - intros (j & Hj & Ej). destruct V1 as (a & Aa & Va & Vc); [exists j; split; auto; now rewrite Mk|]. exists a. split; [|split; auto].
    refine (attends_ext _ _ _ _ _ _ _ _ _ _ Aa); auto. intros j' Hj'. now rewrite Mk.
  - intros Hall. destruct V2 as (Va & Vc); [lia|intros j Hj; rewrite Mk; auto|]. auto.
Qed.
Print Assumptions C46_scaled_dot_product.

(** Bounds of a convex combination over the admitted positions. *)
Lemma attends_between n al s a v lo hi : attends n al s a -> (forall j, (j < n)%nat -> al j = true -> lo <= v j <= hi) ->
  lo <= rsum n (fun j => a j * v j) <= hi.
Proof.
  intros A H. rewrite <- (Rmult_1_r lo), <- (Rmult_1_r hi), <- (at_sum _ _ _ _ A), <- !rsum_scal.
  split; apply rsum_le; intros j Hj; pose proof (at_nonneg _ _ _ _ A j Hj);
    (destruct (al j) eqn:E; [destruct (H j Hj E); nra|rewrite (at_masked _ _ _ _ A j Hj E); lra]).
Qed.

(** Each context component lies between the smallest and the largest value at the positions that are not masked. *)
Theorem C46_context_between : forall dim q k v mask B Q K D Dv b i c lo hi context attn,
  (1 <= dim)%nat -> shape q = [B; Q; D] -> shape k = [B; K; D] -> shape v = [B; K; Dv] ->
  (forall m, mask = Some m -> shape m = [B; Q; K]) -> (b < B)%nat -> (i < Q)%nat -> (c < Dv)%nat ->
  (exists j, (j < K)%nat /\ masked mask [b; i; j] = false) ->
  (forall j, (j < K)%nat -> masked mask [b; i; j] = false -> lo <= at_ v [b; j; c] <= hi) ->
  scaled_dot_forward dim q k v mask = Ok (context, attn) ->
  exists r, at_ context [b; i; c] = Some r /\ lo <= r <= hi.
Proof.
  intros dim q k v mask B Q K D Dv b i c lo hi context attn Hd Sq Sk Sv Sm Hb Hi Hc (j & Hj & Ej) Hv E.
  destruct (C46_scaled_dot_product dim q k v mask B Q K D Dv Hd ltac:(lia) Sq Sk Sv Sm) as (ctx & at' & E' & _ & _ & V).
  rewrite E in E'. injection E' as <- <-. destruct (V b i Hb Hi) as (V1 & _).
  destruct V1 as (a & Aa & _ & Vc); [now exists j|]. rewrite (Vc c Hc). eexists. split; [reflexivity|].
  apply (attends_between _ _ _ _ _ _ _ Aa). intros j' Hj' Ej'. apply Hv; auto. now apply negb_true_iff.
Qed.
Print Assumptions C46_context_between.

(** Non-interference: what a query attends to does not depend on the keys and values masked for it. *)
Theorem C46_masked_keys_irrelevant : forall dim q k v k' v' mask B Q K D Dv b i context attn context' attn',
  (1 <= dim)%nat -> shape q = [B; Q; D] -> shape k = [B; K; D] -> shape v = [B; K; Dv] -> shape k' = [B; K; D] -> shape v' = [B; K; Dv] ->
  (forall m, mask = Some m -> shape m = [B; Q; K]) -> (b < B)%nat -> (i < Q)%nat ->
  (forall j, (j < K)%nat -> masked mask [b; i; j] = false -> forall c, at_ k [b; j; c] = at_ k' [b; j; c] /\ at_ v [b; j; c] = at_ v' [b; j; c]) ->
  scaled_dot_forward dim q k v mask = Ok (context, attn) -> scaled_dot_forward dim q k' v' mask = Ok (context', attn') ->
  (forall j, (j < K)%nat -> at_ attn [b; i; j] = at_ attn' [b; i; j]) /\
  (forall c, (c < Dv)%nat -> at_ context [b; i; c] = at_ context' [b; i; c]).
Proof.
  intros dim q k v k' v' mask B Q K D Dv b i context attn context' attn' Hd Sq Sk Sv Sk' Sv' Sm Hb Hi Hkv E E'.
  destruct (Nat.eq_dec K 0) as [->|HK].
  { destruct (scaled_dot_ok dim q k v mask B Q 0 D Dv Sq Sk Sv) as (c1 & a1 & mk1 & E1 & S1 & _).
    { intros m Em. unfold numel. rewrite (Sm m Em). cbn. lia. }
    split; [intros j Hj; lia|]. intros c Hc.
    assert (Z : forall q k v ctx at', shape q = [B; Q; D] -> shape k = [B; 0%nat; D] -> shape v = [B; 0%nat; Dv] ->
              scaled_dot_forward dim q k v mask = Ok (ctx, at') -> at_ ctx [b; i; c] = Some 0).
    { clear -Sm. intros q k v ctx at' Sq Sk Sv E. unfold scaled_dot_forward in E.
      destruct (permute3_ok k _ _ _ Sk) as (kt & Ek & Skt & Vkt). rewrite Ek in E. cbn [rbind] in E.
      destruct (bmm_ok dotR q kt B Q D 0 Sq Skt) as (s & Es & Ss & Vs). unfold bmm in E. rewrite Es in E. cbn [rbind] in E.
      match type of E with (rbind ?m _ = _) => destruct m as [sm|] eqn:Em; [|discriminate] end. cbn [rbind] in E.
      assert (Ssm : shape (softmax_last sm) = [B; Q; 0%nat]).
      { cbn [softmax_last shape]. destruct mask; [|injection Em as <-; exact Ss].
        destruct reshape; [|discriminate]. injection Em as <-. exact Ss. }
      destruct (bmm_ok dotN (softmax_last sm) v B Q 0 Dv Ssm Sv) as (z & Ez & _ & Vz). unfold bmm_num in E. rewrite Ez in E. injection E as <- _.
      now rewrite Vz. }
    now rewrite (Z q k v context attn Sq Sk Sv E), (Z q k' v' context' attn' Sq Sk' Sv' E'). }
  destruct (C46_scaled_dot_product dim q k v mask B Q K D Dv Hd ltac:(lia) Sq Sk Sv Sm) as (c1 & a1 & E1 & _ & _ & V).
  rewrite E in E1. injection E1 as <- <-.
  destruct (C46_scaled_dot_product dim q k' v' mask B Q K D Dv Hd ltac:(lia) Sq Sk' Sv' Sm) as (c2 & a2 & E2 & _ & _ & V').
  rewrite E' in E2. injection E2 as <- <-.
  destruct (V b i Hb Hi) as (V1 & V2). destruct (V' b i Hb Hi) as (V1' & V2').
  destruct (existsb (fun j => negb (masked mask [b; i; j])) (seq 0 K)) eqn:Ex.
  - apply existsb_exists in Ex. destruct Ex as (j & Hj & Ej). apply in_seq in Hj. apply negb_true_iff in Ej.
    destruct V1 as (a & Aa & Va & Vc); [exists j; split; auto; lia|]. destruct V1' as (a' & Aa' & Va' & Vc'); [exists j; split; auto; lia|].
    assert (Ea : forall j, (j < K)%nat -> a j = a' j).
    { apply (attends_unique _ _ _ _ _ Aa). refine (attends_ext _ _ _ _ _ _ _ _ _ _ Aa'); auto.
      intros j' Hj' Ej'. apply negb_true_iff in Ej'. f_equal. apply rsum_ext. intros c _. now rewrite (proj1 (Hkv j' Hj' Ej' c)). }
    split; [intros j' Hj'; now rewrite Va, Va', Ea|]. intros c Hc. rewrite Vc, Vc' by auto. f_equal. apply rsum_ext. intros j' Hj'.
    rewrite Ea by auto. destruct (masked mask [b; i; j']) eqn:Em; [|now rewrite (proj2 (Hkv j' Hj' Em c))].
    rewrite (at_masked _ _ _ _ Aa' j' Hj') by (now rewrite Em). ring.
  - assert (All : forall j, (j < K)%nat -> masked mask [b; i; j] = true).
    { intros j Hj. destruct (masked mask [b; i; j]) eqn:Em; auto. exfalso.
      assert (C : existsb (fun j => negb (masked mask [b; i; j])) (seq 0 K) = true); [|congruence].
      apply existsb_exists. exists j. split; [apply in_seq; lia|now rewrite Em]. }
    destruct (V2 All) as (Va & Vc). destruct (V2' All) as (Va' & Vc').
    split; intros; [now rewrite Va, Va'|now rewrite Vc, Vc'].
Qed.
Print Assumptions C46_masked_keys_irrelevant.

(** DotProductAttention. *)
Theorem C46_dot_product : forall q v B Q K D, (1 <= B)%nat -> (1 <= K)%nat -> shape q = [B; Q; D] -> shape v = [B; K; D] ->
  exists context attn, dot_product_forward q v = Ok (context, attn) /\ shape context = [B; Q; D] /\ shape attn = [B; Q; K] /\
    forall b i, (b < B)%nat -> (i < Q)%nat ->
      exists a, attends K (fun _ => true) (fun j => rsum D (fun c => at_ q [b; i; c] * at_ v [b; j; c])) a /\
        (forall j, (j < K)%nat -> at_ attn [b; i; j] = Some (a j)) /\
        (forall c, (c < D)%nat -> at_ context [b; i; c] = Some (rsum K (fun j => a j * at_ v [b; j; c]))).
Proof.
  intros q v B Q K D HB HK Sq Sv. unfold dot_product_forward, size. rewrite Sq, Sv. cbn [nth_error rbind].
  destruct (permute3_ok v _ _ _ Sv) as (vt & -> & Svt & Vvt). cbn [rbind].
  destruct (bmm_ok dotR q vt B Q D K Sq Svt) as (s & Es & Ss & Vs). unfold bmm. rewrite Es. cbn [rbind].
  destruct (view_infer_ok s [] [K] (B * Q)%nat) as (s2 & -> & Ss2 & Vs2); [cbn; lia|unfold numel; rewrite Ss; cbn; lia|]. cbn [rbind app] in *.
  assert (Sa2 : shape (softmax_last (scores s2)) = [(B * Q)%nat; K]) by exact Ss2.
  destruct (view_infer_ok (softmax_last (scores s2)) [B] [K] Q) as (attn & -> & Sa & Va); [cbn; nia|unfold numel; rewrite Sa2; cbn; lia|]. cbn [rbind app] in *.
  destruct (bmm_ok dotN attn v B Q K D Sa Sv) as (ctx & Ec & Sc & Vc). unfold bmm_num. rewrite Ec. cbn [rbind].
  exists ctx, attn. do 3 (split; auto). intros b i Hb Hi.
  destruct (softmax2_at s2 (B * Q)%nat K (b * Q + i)%nat Ss2 HK) as (a & Aa & Ea).
  assert (Ha : forall j, (j < K)%nat -> at_ attn [b; i; j] = Some (a j)).
  { intros j Hj. rewrite <- Ea. apply Va; [rewrite Sa2; cbn; nia|rewrite Sa2; cbn; lia]. }
  exists a. split; [|split; auto].
  - refine (attends_ext _ _ _ _ _ _ _ _ _ _ Aa); auto. intros j Hj _.
    rewrite (Vs2 [(b * Q + i)%nat; j] [b; i; j]); [|rewrite Ss; cbn; lia|rewrite Ss; cbn; lia].
    rewrite Vs. apply rsum_ext. intros c _. now rewrite Vvt.
  - intros c Hc. rewrite Vc. now apply dotN_some.
Qed.
Print Assumptions C46_dot_product.

Lemma bmm_shapes {A} dot (x : tensor A) y z : bmm_ dot x y = Ok z ->
  exists b n m p, shape x = [b; n; m] /\ shape y = [b; m; p] /\ shape z = [b; n; p].
Proof.
  unfold bmm_. destruct (shape x) as [|b [|n [|m [|? ?]]]]; try discriminate.
  destruct (shape y) as [|b' [|m' [|p [|? ?]]]]; try discriminate.
  destruct (Nat.eqb b b' && Nat.eqb m m')%bool eqn:E; [|discriminate].
  apply andb_prop in E. destruct E as (E1%Nat.eqb_eq & E2%Nat.eqb_eq). subst. intros [= <-]. now exists b', n, m', p.
Qed.
Lemma permute3_shapes {A} (t y : tensor A) : permute_ [0; 2; 1]%nat t = Ok y -> exists a b c, shape t = [a; b; c] /\ shape y = [a; c; b].
Proof.
  unfold permute_. destruct (shape t) as [|a [|b [|c [|? ?]]]] eqn:S; cbn; try discriminate. intros [= <-].
  exists a, b, c. unfold permute. rewrite S. now split.
Qed.

(** Only tensors of matching three-dimensional shapes are accepted; a mask needs as many entries as there are weights. *)
Theorem C46_scaled_dot_product_shapes : forall dim q k v mask,
  (exists r, scaled_dot_forward dim q k v mask = Ok r) <->
  exists B Q K D Dv, shape q = [B; Q; D] /\ shape k = [B; K; D] /\ shape v = [B; K; Dv] /\
    forall m, mask = Some m -> numel m = (B * Q * K)%nat.
Proof.
  intros dim q k v mask. split.
  - intros (r & E). unfold scaled_dot_forward in E.
    destruct (permute_ [0; 2; 1]%nat k) as [kt|] eqn:Ek; cbn [rbind] in E; [|discriminate].
    destruct (bmm q kt) as [s|] eqn:Es; cbn [rbind] in E; [|discriminate].
    destruct (permute3_shapes _ _ Ek) as (a & b & c & Sk & Skt). destruct (bmm_shapes _ _ _ _ Es) as (B & Q & D & K & Sq & Skt' & Ss).
    rewrite Skt in Skt'. injection Skt' as -> -> ->.
    assert (G : exists m' : tensor score, shape m' = [B; Q; K] /\ (forall m, mask = Some m -> numel m = (B * Q * K)%nat) /\
                exists ctx, bmm_num (softmax_last m') v = Ok ctx).
    { destruct mask as [m|]; cbn [rbind] in E.
      - unfold reshape in E at 1. change (shape (tmap _ s)) with (shape s) in E. rewrite Ss in E.
        destruct (Nat.eqb _ _) eqn:En in E; cbn [rbind] in E; [|discriminate].
        apply Nat.eqb_eq in En.
        match type of E with context [bmm_num (softmax_last ?t) v] => exists t end.
        split; [exact Ss|]. split; [intros m0 [= <-]; cbn in En; unfold numel in *; lia|].
        destruct (bmm_num _ v) as [ctx|]; [now exists ctx|discriminate].
      - match type of E with context [bmm_num (softmax_last ?t) v] => exists t end.
        split; [exact Ss|]. split; [discriminate|]. destruct (bmm_num _ v) as [ctx|]; [now exists ctx|discriminate]. }
    destruct G as (m' & Sm & Hm & ctx & Ec). destruct (bmm_shapes _ _ _ _ Ec) as (B' & Q' & K' & Dv & Sa & Sv & _).
    change (shape (softmax_last m')) with (shape m') in Sa. rewrite Sm in Sa. injection Sa as <- <- <-. now exists B, Q, K, D, Dv.
  - intros (B & Q & K & D & Dv & Sq & Sk & Sv & Sm).
    destruct (scaled_dot_ok dim q k v mask B Q K D Dv Sq Sk Sv) as (ctx & attn & mk & E & _); [exact Sm|]. now exists (ctx, attn).
Qed.
Print Assumptions C46_scaled_dot_product_shapes.

(** DotProductAttention: queries and values that are not three-dimensional with equal batches and sizes are refused. *)
Theorem C46_dot_product_shapes : forall q v r, dot_product_forward q v = Ok r ->
  exists B Q K D, shape q = [B; Q; D] /\ shape v = [B; K; D].
Proof.
  intros q v r E. unfold dot_product_forward in E.
  destruct (size 0 q); cbn [rbind] in E; [|discriminate]. destruct (size 2 q); cbn [rbind] in E; [|discriminate].
  destruct (size 1 v); cbn [rbind] in E; [|discriminate].
  destruct (permute_ [0; 2; 1]%nat v) as [vt|] eqn:Ev; cbn [rbind] in E; [|discriminate].
  destruct (bmm q vt) as [s|] eqn:Es; cbn [rbind] in E; [|discriminate].
  destruct (permute3_shapes _ _ Ev) as (a' & b' & c' & Sv & Svt). destruct (bmm_shapes _ _ _ _ Es) as (B & Q & D & K & Sq & Svt' & _).
  rewrite Svt in Svt'. injection Svt' as -> -> ->. now exists B, Q, K, D.
Qed.
Print Assumptions C46_dot_product_shapes.

(** A key without its batch dimension is refused; so is a mask for one query only when there are two. *)
Example C46_shapes_case : let t s := mkT s (fun _ => 1) in
  (exists r, scaled_dot_forward 2 (t [1; 2; 2]%nat) (t [1; 3; 2]%nat) (t [1; 3; 4]%nat) (Some (mkT [2; 3]%nat (fun _ => false))) = Ok r) /\
  (~ exists r, scaled_dot_forward 2 (t [1; 2; 0]%nat) (t [1; 3]%nat) (t [1; 3; 4]%nat) None = Ok r) /\
  (~ exists r, scaled_dot_forward 2 (t [1; 2; 2]%nat) (t [1; 3; 2]%nat) (t [1; 3; 4]%nat) (Some (mkT [1; 3]%nat (fun _ => false))) = Ok r).
Proof.
  cbv zeta. split; [|split].
  - apply C46_scaled_dot_product_shapes. exists 1%nat, 2%nat, 3%nat, 2%nat, 4%nat. repeat split. intros m [= <-]. reflexivity.
  - intros (B & Q & K & D & Dv & _ & Sk & _)%C46_scaled_dot_product_shapes. discriminate Sk.
  - intros (B & Q & K & D & Dv & Sq & Sk & _ & Sm)%C46_scaled_dot_product_shapes. cbn in Sq, Sk. injection Sq as <- <- <-. injection Sk as <-.
    specialize (Sm _ eq_refl). discriminate Sm.
Qed.

(** AdditiveAttention with one query per sample, or one per key. *)
Theorem C46_additive : forall l q k v B Q K H Dv, (1 <= K)%nat ->
  shape (ad_query_proj l) = [H; H] -> shape (ad_key_proj l) = [H; H] -> shape (ad_bias l) = [H] -> shape (ad_score_w l) = [1%nat; H] ->
  shape q = [B; Q; H] -> shape k = [B; K; H] -> shape v = [B; K; Dv] -> Q = 1%nat \/ Q = K ->
  exists context attn, additive_forward l q k v = Ok (context, attn) /\ shape context = [B; 1%nat; Dv] /\ shape attn = [B; K] /\
    forall b, (b < B)%nat ->
      exists a, attends K (fun _ => true) (fun j =>
           affine H (ad_score_w l) (ad_score_b l) (fun h => tanh (
             rsum H (fun c => at_ k [b; j; c] * at_ (ad_key_proj l) [h; c]) +
             rsum H (fun c => at_ q [b; (if Nat.eqb Q 1 then 0 else j)%nat; c] * at_ (ad_query_proj l) [h; c]) + at_ (ad_bias l) [h])) 0) a /\
        (forall j, (j < K)%nat -> at_ attn [b; j] = Some (a j)) /\
        (forall c, (c < Dv)%nat -> at_ context [b; 0%nat; c] = Some (rsum K (fun j => a j * at_ v [b; j; c]))).
Proof.
  intros l q k v B Q K H Dv HK Swq Swk Sb Ssw Sq Sk Sv HQ. unfold additive_forward.
  destruct (linear0_3 _ k B K H H Sk Swk) as (kp & -> & Skp & Vkp). cbn [rbind].
  destruct (linear0_3 _ q B Q H H Sq Swq) as (qp & -> & Sqp & Vqp). cbn [rbind].
  destruct (bsum3 Rplus kp qp B K Q H Skp Sqp ltac:(tauto)) as (s1 & -> & Ss1 & Vs1). cbn [rbind].
  destruct (bsum_vec Rplus s1 (ad_bias l) B K H Ss1 Sb) as (s2 & -> & Ss2 & Vs2). cbn [rbind].
  destruct (linear3_ok (ad_score_w l) (ad_score_b l) (tmap tanh s2) B K H 1 Ss2 Ssw) as (s3 & -> & Ss3 & Vs3). cbn [rbind].
  destruct (squeeze_last_ok s3 B K Ss3) as (Ss4 & Vs4). set (s4 := squeeze _ s3) in *.
  assert (Sa : shape (softmax_last (scores s4)) = [B; K]) by exact Ss4.
  destruct (weigh_ok (softmax_last (scores s4)) v B K Dv Sa Sv) as (ctx & Ec & Sc & Vc). rewrite Ec. cbn [rbind].
  exists ctx, (softmax_last (scores s4)). do 3 (split; auto). intros b Hb.
  destruct (softmax2_at s4 B K b Ss4 HK) as (a & Aa & Ea). exists a. split; [|split; auto].
  - refine (attends_ext _ _ _ _ _ _ _ _ _ _ Aa); auto. intros j Hj _. rewrite Vs4, Vs3. unfold affine. f_equal. apply rsum_ext. intros h Hh.
    f_equal. cbn [tmap at_]. f_equal. now rewrite Vs2, Vs1, Vkp, Vqp by auto.
  - intros c Hc. rewrite Vc. apply dotN_some. auto.
Qed.
Print Assumptions C46_additive.

Lemma sigmoid_pos x : 0 < sigmoid x.
Proof. apply Rinv_0_lt_compat. pose proof (exp_pos (- x)). lra. Qed.
Lemma location_weights_ok (sm : bool) (s : tensor R) B K b : shape s = [B; K] -> (0 < K)%nat ->
  exists a, proportional K (fun j => (if sm then sigmoid else exp) (at_ s [b; j])) a /\ forall j, at_ (location_weights sm s) [b; j] = Some (a j).
Proof.
  intros S HK. destruct sm.
  - cbn [location_weights at_ tmap shape]. rewrite S. cbn [last removelast app].
    set (Z := rsum K (fun j => sigmoid (at_ s [b; j]))).
    assert (Zp : 0 < Z) by (apply rsum_pos; [intros; left; apply sigmoid_pos|exists 0%nat; split; [auto|apply sigmoid_pos]]).
    exists (fun j => sigmoid (at_ s [b; j]) / Z). split; [|reflexivity]. constructor.
    + intros j _. apply Rmult_le_pos; [left; apply sigmoid_pos|left; now apply Rinv_0_lt_compat].
    + unfold Rdiv. rewrite rsum_scal_r. fold Z. field. lra.
    + intros i j _ _. field. lra.
  - destruct (softmax2_at s B K b S HK) as (a & Aa & Ea). exists a. split; [|exact Ea]. constructor; [apply Aa|apply Aa|].
    intros i j Hi Hj. now apply (at_ratio _ _ _ _ Aa).
Qed.

(** LocationAwareAttention: weights proportional to the sigmoid (smoothing) or the exponential of the scores. *)
Theorem C46_location_aware : forall l q v last B Q T H, (1 <= B)%nat -> (1 <= T)%nat -> (1 <= H)%nat ->
  shape (la_conv_w l) = [H; 1%nat; 3%nat] -> shape (la_query_proj l) = [H; H] -> shape (la_value_proj l) = [H; H] ->
  shape (la_score_w l) = [1%nat; H] -> shape (la_bias l) = [H] ->
  shape q = [B; Q; H] -> shape v = [B; T; H] -> Q = 1%nat \/ Q = T -> (forall t, last = Some t -> shape t = [B; T]) ->
  exists context attn, location_aware_forward l q v last = Ok (context, attn) /\ shape context = [B; H] /\ shape attn = [B; T] /\
    forall b, (b < B)%nat ->
      exists a, proportional T (fun j => (if la_smoothing l then sigmoid else exp)
           (affine H (la_score_w l) (la_score_b l) (fun h => tanh (
             rsum H (fun c => at_ q [b; (if Nat.eqb Q 1 then 0 else j)%nat; c] * at_ (la_query_proj l) [h; c]) +
             rsum H (fun c => at_ v [b; j; c] * at_ (la_value_proj l) [h; c]) +
             (around T (fun i => at_ (la_conv_w l) [h; 0%nat; i]) (fun t => match last with Some x => at_ x [b; t] | None => 0 end) j +
              at_ (la_conv_b l) [h]) +
             at_ (la_bias l) [h])) 0)) a /\
        (forall j, (j < T)%nat -> at_ attn [b; j] = Some (a j)) /\
        (forall c, (c < H)%nat -> at_ context [b; c] = Some (rsum T (fun j => a j * at_ v [b; j; c]))).
Proof.
  intros l q v last B Q T H HB HT HH Scw Swq Swv Ssw Sb Sq Sv HQ Sl. unfold location_aware_forward, size. rewrite Sq, Sv. cbn [nth_error rbind].
  set (la := match last with Some a => a | None => zeros [B; T] end).
  assert (Sla : shape la = [B; T]) by (unfold la; destruct last as [t|]; [now apply Sl|reflexivity]).
  assert (Su : shape (unsqueeze 1 la) = [B; 1%nat; T]) by (cbn [unsqueeze shape]; now rewrite Sla).
  destruct (conv3_ok (la_conv_w l) (la_conv_b l) (unsqueeze 1 la) B 1 T H Scw Su HT) as (cv & -> & Scv & Vcv). cbn [rbind].
  assert (Spc : shape (permute [0; 2; 1]%nat cv) = [B; T; H]) by (unfold permute; cbn [shape]; rewrite Scv; reflexivity).
  assert (Vpc : forall b t h, at_ (permute [0; 2; 1]%nat cv) [b; t; h] = at_ cv [b; h; t]) by (intros; unfold permute; cbn [at_]; rewrite Scv; reflexivity).
  set (ca := permute [0; 2; 1]%nat cv) in *.
  (* query *)
  assert (Proj : forall x w X, shape x = [B; X; H] -> shape w = [H; H] -> exists y1 y2 y3,
            view_infer [] [H] x = Ok y1 /\ linear0 w y1 = Ok y2 /\ view_infer [B] [H] y2 = Ok y3 /\ shape y3 = [B; X; H] /\
            forall b t h, (b < B)%nat -> (t < X)%nat -> (h < H)%nat -> at_ y3 [b; t; h] = rsum H (fun c => at_ x [b; t; c] * at_ w [h; c])).
  { intros x w X Sx Sw. destruct (view_infer_ok x [] [H] (B * X)%nat) as (y1 & E1 & S1 & V1); [cbn; lia|unfold numel; rewrite Sx; cbn; lia|]. cbn [app] in *.
    destruct (linear0_2 w y1 (B * X)%nat H H S1 Sw) as (y2 & E2 & S2 & V2).
    destruct (view_infer_ok y2 [B] [H] X) as (y3 & E3 & S3 & V3); [cbn; nia|unfold numel; rewrite S2; cbn; lia|]. cbn [app] in *.
    exists y1, y2, y3. do 4 (split; [assumption|]). intros b t h Hb Ht Hh.
    rewrite (V3 [b; t; h] [(b * X + t)%nat; h]); [|rewrite S2; cbn; nia|rewrite S2; cbn; lia]. rewrite V2. apply rsum_ext. intros c Hc. f_equal.
    apply V1; rewrite Sx; cbn; [lia|lia]. }
  destruct (Proj q _ Q Sq Swq) as (q1 & q2 & q3 & -> & Eq2 & Eq3 & Sq3 & Vq3). cbn [rbind]. rewrite Eq2. cbn [rbind]. rewrite Eq3. cbn [rbind].
  destruct (Proj v _ T Sv Swv) as (v1 & v2 & v3 & -> & Ev2 & Ev3 & Sv3 & Vv3). cbn [rbind]. rewrite Ev2. cbn [rbind]. rewrite Ev3. cbn [rbind].
  (* the first sum broadcasts the query *)
  assert (S1 : exists s1, broadcast2 Rplus q3 v3 = Ok s1 /\ shape s1 = [B; T; H] /\
            forall b t h, (b < B)%nat -> (t < T)%nat -> (h < H)%nat -> at_ s1 [b; t; h] = at_ q3 [b; (if Nat.eqb Q 1 then 0 else t)%nat; h] + at_ v3 [b; t; h]).
  { destruct (bsum3 (fun x y => y + x) v3 q3 B T Q H Sv3 Sq3 ltac:(tauto)) as (z & E & S & V).
    unfold broadcast2 in *. rewrite Sq3, Sv3 in *. unfold bshape in *. cbn [rev app bshape_rev] in *. rewrite !bsize_refl in *.
    assert (Bq : bsize Q T = Some T) by (destruct HQ as [->| ->]; [apply bsize_1|apply bsize_refl]).
    rewrite (bsize_r T Q) in E by tauto. rewrite Bq. cbn [rev app] in *. injection E as <-.
    eexists. split; [reflexivity|]. split; [reflexivity|]. intros b t h Hb Ht Hh. apply (V b t h Hb Ht Hh). }
  destruct S1 as (s1 & -> & Ss1 & Vs1). cbn [rbind].
  destruct (bsum3 Rplus s1 ca B T T H Ss1 Spc ltac:(tauto)) as (s2 & -> & Ss2 & Vs2). cbn [rbind].
  destruct (bsum_vec Rplus s2 (la_bias l) B T H Ss2 Sb) as (s3 & -> & Ss3 & Vs3). cbn [rbind].
  destruct (linear3_ok (la_score_w l) (la_score_b l) (tmap tanh s3) B T H 1 Ss3 Ssw) as (s4 & -> & Ss4 & Vs4). cbn [rbind].
  destruct (squeeze_last_ok s4 B T Ss4) as (Ss5 & Vs5). set (s5 := squeeze _ s4) in *.
  assert (Sa : shape (location_weights (la_smoothing l) s5) = [B; T]) by (destruct (la_smoothing l); exact Ss5).
  destruct (weigh_ok (location_weights (la_smoothing l) s5) v B T H Sa Sv) as (ctx & Ec & Sc & Vc). rewrite Ec. cbn [rbind].
  destruct (squeeze1_ok ctx B H Sc) as (Ssq & Vsq).
  exists (squeeze 1 ctx), (location_weights (la_smoothing l) s5). do 3 (split; auto). intros b Hb.
  destruct (location_weights_ok (la_smoothing l) s5 B T b Ss5 HT) as (a & Aa & Ea). exists a. split; [|split; auto].
  - assert (Es : forall j, (j < T)%nat -> at_ s5 [b; j] =
        affine H (la_score_w l) (la_score_b l) (fun h => tanh (
             rsum H (fun c => at_ q [b; (if Nat.eqb Q 1 then 0 else j)%nat; c] * at_ (la_query_proj l) [h; c]) +
             rsum H (fun c => at_ v [b; j; c] * at_ (la_value_proj l) [h; c]) +
             (around T (fun i => at_ (la_conv_w l) [h; 0%nat; i]) (fun t => match last with Some x => at_ x [b; t] | None => 0 end) j +
              at_ (la_conv_b l) [h]) +
             at_ (la_bias l) [h])) 0).
    { intros j Hj. rewrite Vs5, Vs4. unfold affine. f_equal. apply rsum_ext. intros h Hh. f_equal. cbn [tmap at_]. f_equal.
      rewrite Vs3, Vs2, Vs1, Vv3 by auto. rewrite Vq3; [|auto|destruct (Nat.eqb_spec Q 1); lia|auto]. f_equal. f_equal.
      rewrite Vpc. replace (if Nat.eqb T 1 then 0 else j)%nat with j by (destruct (Nat.eqb_spec T 1); lia).
      rewrite Vcv. f_equal. cbn [rsum]. unfold around.
      assert (Ela : forall t, (t < T)%nat -> at_ (unsqueeze 1 la) [b; 0%nat; t] = match last with Some x => at_ x [b; t] | None => 0 end).
      { intros t Ht. cbn [unsqueeze at_ firstn skipn app]. unfold la. destruct last; reflexivity. }
      replace (j + 0 - 1)%nat with (j - 1)%nat by lia. replace (j + 1 - 1)%nat with j by lia. replace (j + 2 - 1)%nat with (j + 1)%nat by lia.
      destruct (Nat.eqb_spec j 0) as [->|Hj0].
      - cbn [Nat.leb Nat.add andb]. destruct (Nat.ltb_spec 0 T); [|lia]. rewrite Ela by lia.
        destruct (Nat.ltb_spec 1 T); [rewrite Ela by lia|]; ring.
      - destruct (Nat.leb_spec 1 (j + 0)); [|lia]. destruct (Nat.leb_spec 1 (j + 1)); [|lia]. destruct (Nat.leb_spec 1 (j + 2)); [|lia]. cbn [andb].
        destruct (Nat.ltb_spec (j - 1) T); [|lia]. destruct (Nat.ltb_spec j T); [|lia]. rewrite !Ela by lia.
        destruct (Nat.ltb_spec (j + 1) T); [rewrite Ela by lia|]; ring. }
    destruct Aa as [A1 A2 A3]. constructor; auto. intros i j Hi Hj. rewrite <- !Es by auto. now apply A3.
  - intros c Hc. rewrite Vsq, Vc. apply dotN_some. auto.
Qed.
Print Assumptions C46_location_aware.

(** Cases: a query orthogonal to two keys averages their values; masking one of them leaves the other; masking both gives NaN. *)
Example C46_case : exists context attn,
  let q := mkT [1; 1; 1]%nat (fun _ => 0) in let k := mkT [1; 2; 1]%nat (fun ix => INR (nth 1 ix 0%nat)) in
  scaled_dot_forward 4 q k k None = Ok (context, attn) /\
  at_ attn [0; 0; 0]%nat = Some (1/2) /\ at_ attn [0; 0; 1]%nat = Some (1/2) /\ at_ context [0; 0; 0]%nat = Some (1/2).
Proof.
  cbv zeta. set (q := mkT _ _). set (k := mkT _ _).
  destruct (C46_scaled_dot_product 4 q k k None 1 1 2 1 1) as (c & a & E & _ & _ & V); try reflexivity; try lia; [discriminate|].
  exists c, a. split; [exact E|]. destruct (V 0%nat 0%nat) as (V1 & _); try lia. destruct V1 as (w & A & Va & Vc); [exists 0%nat; split; auto; lia|].
  pose proof (attends_explicit _ _ _ _ A) as X. cbn in X.
  assert (Z : forall x, (0 + 0 * x) / sqrt (1 + 1 + 1 + 1) = 0) by (intros; unfold Rdiv; ring).
  assert (W : forall j, (j < 2)%nat -> w j = 1 / 2) by (intros j Hj; rewrite X, !Z, exp_0 by auto; lra).
  rewrite !Va, !Vc by lia. cbn [rsum]. rewrite !W by lia. cbn. split; [reflexivity|]. split; [reflexivity|]. f_equal. lra.
Qed.
Example C46_mask_case : forall r, exists context attn,
  let q := mkT [1; 1; 1]%nat (fun _ => r) in let k := mkT [1; 2; 1]%nat (fun ix => INR (nth 1 ix 0%nat)) in
  scaled_dot_forward 4 q k k (Some (mkT [1; 1; 2]%nat (fun ix => Nat.eqb (nth 2 ix 0%nat) 0))) = Ok (context, attn) /\
  at_ attn [0; 0; 0]%nat = Some 0 /\ at_ attn [0; 0; 1]%nat = Some 1 /\ at_ context [0; 0; 0]%nat = Some 1.
Proof.
  intros r. cbv zeta. set (q := mkT _ _). set (k := mkT _ (fun ix => INR _)). set (m := mkT _ _).
  destruct (C46_scaled_dot_product 4 q k k (Some m) 1 1 2 1 1) as (c & a & E & _ & _ & V); try reflexivity; try lia; [intros m' Em; now injection Em as <-|].
  exists c, a. split; [exact E|]. destruct (V 0%nat 0%nat) as (V1 & _); try lia. destruct V1 as (w & A & Va & Vc); [exists 1%nat; split; auto; lia|].
  assert (W0 : w 0%nat = 0) by (apply (at_masked _ _ _ _ A); auto; lia).
  pose proof (at_sum _ _ _ _ A) as S. cbn [rsum] in S. assert (W1 : w 1%nat = 1) by lra.
  rewrite !Va, !Vc by lia. cbn [rsum]. rewrite W0, W1. cbn. split; [|split]; f_equal; lra.
Qed.
Example C46_nan_case : forall r, exists context attn,
  let q := mkT [1; 1; 1]%nat (fun _ => r) in
  scaled_dot_forward 4 q q q (Some (mkT [1; 1; 1]%nat (fun ix => true))) = Ok (context, attn) /\
  at_ attn [0; 0; 0]%nat = None /\ at_ context [0; 0; 0]%nat = None.
Proof.
  intros r. cbv zeta. set (q := mkT _ (fun _ => r)). set (m := mkT _ _).
  destruct (C46_scaled_dot_product 4 q q q (Some m) 1 1 1 1 1) as (c & a & E & _ & _ & V); try reflexivity; try lia; [intros m' Em; now injection Em as <-|].
  exists c, a. split; [exact E|]. destruct (V 0%nat 0%nat) as (_ & V2); try lia. destruct V2 as (Va & Vc); [reflexivity|]. split; [apply Va|apply Vc]; lia.
Qed.

(** ** C60: the order of keys and values does not matter *)
Lemma rsum_fold n f : rsum n f = fold_right Rplus 0 (map f (seq 0 n)).
Proof.
  induction n as [|n IH]; [reflexivity|]. rewrite seq_S, map_app, fold_right_app. cbn [rsum map fold_right Nat.add].
  rewrite IH. generalize (map f (seq 0 n)). clear. intros l. generalize (f n). intros r. revert r. induction l as [|a l IH]; intros r; cbn; [lra|].
  rewrite <- IH. lra.
Qed.
Lemma rsum_perm n f p : Permutation (map p (seq 0 n)) (seq 0 n) -> rsum n (fun i => f (p i)) = rsum n f.
Proof.
  intros P. rewrite !rsum_fold. rewrite <- (map_map p f). apply (Permutation_map f) in P. revert P.
  generalize (map f (map p (seq 0 n))) (map f (seq 0 n)). induction 1; cbn; lra.
Qed.

(** Permuting keys, values and mask columns in the same way permutes the weights and leaves the context alone. *)
Theorem C60_order_of_keys_irrelevant : forall dim q k v mask k' v' mask' B Q K D Dv p context attn context' attn',
  (1 <= dim)%nat -> (1 <= K)%nat -> shape q = [B; Q; D] -> shape k = [B; K; D] -> shape v = [B; K; Dv] ->
  shape k' = [B; K; D] -> shape v' = [B; K; Dv] ->
  (forall m, mask = Some m -> shape m = [B; Q; K]) -> (forall m, mask' = Some m -> shape m = [B; Q; K]) ->
  Permutation (map p (seq 0 K)) (seq 0 K) ->
  (forall b j c, at_ k' [b; j; c] = at_ k [b; p j; c]) -> (forall b j c, at_ v' [b; j; c] = at_ v [b; p j; c]) ->
  (forall b i j, masked mask' [b; i; j] = masked mask [b; i; p j]) ->
  scaled_dot_forward dim q k v mask = Ok (context, attn) -> scaled_dot_forward dim q k' v' mask' = Ok (context', attn') ->
  forall b i, (b < B)%nat -> (i < Q)%nat ->
    (forall j, (j < K)%nat -> at_ attn' [b; i; j] = at_ attn [b; i; p j]) /\
    (forall c, (c < Dv)%nat -> at_ context' [b; i; c] = at_ context [b; i; c]).
Proof.
  intros dim q k v mask k' v' mask' B Q K D Dv p context attn context' attn' Hd HK Sq Sk Sv Sk' Sv' Sm Sm' P Ek Ev Em E E' b i Hb Hi.
  assert (Pl : forall j, (j < K)%nat -> (p j < K)%nat).
  { intros j Hj. assert (I : In (p j) (seq 0 K)); [|apply in_seq in I; lia].
    apply (Permutation_in _ P). apply in_map, in_seq. lia. }
  destruct (C46_scaled_dot_product dim q k v mask B Q K D Dv Hd HK Sq Sk Sv Sm) as (c1 & a1 & E1 & _ & _ & V).
  rewrite E in E1. injection E1 as <- <-.
  destruct (C46_scaled_dot_product dim q k' v' mask' B Q K D Dv Hd HK Sq Sk' Sv' Sm') as (c2 & a2 & E2 & _ & _ & V').
  rewrite E' in E2. injection E2 as <- <-.
  destruct (V b i Hb Hi) as (V1 & V2). destruct (V' b i Hb Hi) as (V1' & V2').
  destruct (existsb (fun j => negb (masked mask' [b; i; j])) (seq 0 K)) eqn:Ex.
  - apply existsb_exists in Ex. destruct Ex as (j & Hj & Ej). apply in_seq in Hj. apply negb_true_iff in Ej.
    destruct V1' as (a' & Aa' & Va' & Vc'); [exists j; split; auto; lia|].
    destruct V1 as (a & Aa & Va & Vc); [exists (p j); split; [apply Pl; lia|now rewrite <- Em]|].
    assert (Ea : forall j, (j < K)%nat -> a' j = a (p j)).
    { apply (attends_unique _ _ _ _ _ Aa'). destruct Aa as [A1 A2 A3 A4]. constructor.
      - intros j' Hj'. auto.
      - now rewrite (rsum_perm K a p P).
      - intros j' Hj' M. apply A3; auto. now rewrite <- Em.
      - intros i' j' Hi' Hj' M M'. rewrite Em in M, M'. pose proof (A4 _ _ (Pl _ Hi') (Pl _ Hj') M M') as A5. 
        rewrite (rsum_ext D (fun c => at_ q [b; i; c] * at_ k' [b; j'; c]) (fun c => at_ q [b; i; c] * at_ k [b; p j'; c])) by (intros; now rewrite Ek).
        rewrite (rsum_ext D (fun c => at_ q [b; i; c] * at_ k' [b; i'; c]) (fun c => at_ q [b; i; c] * at_ k [b; p i'; c])) by (intros; now rewrite Ek).
        exact A5. }
    split; [intros j' Hj'; rewrite Va', Va, Ea by auto; reflexivity|]. intros c Hc. rewrite Vc', Vc by auto. f_equal.
    rewrite <- (rsum_perm K (fun j => a j * at_ v [b; j; c]) p P). apply rsum_ext. intros j' Hj'. now rewrite Ea, Ev.
  - assert (All : forall j, (j < K)%nat -> masked mask' [b; i; j] = true).
    { intros j Hj. destruct (masked mask' [b; i; j]) eqn:M; auto. exfalso.
      assert (C : existsb (fun j => negb (masked mask' [b; i; j])) (seq 0 K) = true); [|congruence].
      apply existsb_exists. exists j. split; [apply in_seq; lia|now rewrite M]. }
    assert (All' : forall j, (j < K)%nat -> masked mask [b; i; j] = true).
    { intros j Hj. assert (I : In j (map p (seq 0 K))) by (apply (Permutation_in _ (Permutation_sym P)), in_seq; lia).
      apply in_map_iff in I. destruct I as (j' & <- & I). apply in_seq in I. rewrite <- Em. apply All. lia. }
    destruct (V2 All') as (Va & Vc). destruct (V2' All) as (Va' & Vc').
    split; intros; [rewrite Va, Va' by auto; reflexivity|now rewrite Vc, Vc'].
Qed.
Print Assumptions C60_order_of_keys_irrelevant.

Example C60_case : forall r s u, exists context attn context' attn',
  let q := mkT [1; 1; 1]%nat (fun _ => u) in
  let k := mkT [1; 2; 1]%nat (fun ix => if Nat.eqb (nth 1 ix 0%nat) 0 then r else s) in
  let k' := mkT [1; 2; 1]%nat (fun ix => if Nat.eqb (nth 1 ix 0%nat) 0 then s else if Nat.eqb (nth 1 ix 0%nat) 1 then r else s) in
  scaled_dot_forward 4 q k k None = Ok (context, attn) /\ scaled_dot_forward 4 q k' k' None = Ok (context', attn') /\
  at_ attn' [0; 0; 0]%nat = at_ attn [0; 0; 1]%nat /\ at_ context' [0; 0; 0]%nat = at_ context [0; 0; 0]%nat.
Proof.
  intros r s u. cbv zeta. set (q := mkT _ _). set (k := mkT _ _). set (k' := mkT [1; 2; 1]%nat (fun ix => if Nat.eqb (nth 1 ix 0%nat) 0 then s else _)).
  destruct (C46_scaled_dot_product 4 q k k None 1 1 2 1 1) as (c & a & E & _ & _ & _); try reflexivity; try lia; [discriminate|].
  destruct (C46_scaled_dot_product 4 q k' k' None 1 1 2 1 1) as (c' & a' & E' & _ & _ & _); try reflexivity; try lia; [discriminate|].
  exists c, a, c', a'. split; [exact E|]. split; [exact E'|].
  destruct (C60_order_of_keys_irrelevant 4 q k k None k' k' None 1 1 2 1 1 (fun j => if Nat.eqb j 0 then 1 else if Nat.eqb j 1 then 0 else j)%nat c a c' a')
    with (b := 0%nat) (i := 0%nat) as (H1 & H2); try reflexivity; try lia; try assumption; try discriminate.
  - cbn. apply perm_swap.
  - intros b [|[|j]] c0; reflexivity.
  - intros b [|[|j]] c0; reflexivity.
  - split; [apply (H1 0%nat)|apply H2]; lia.
Qed.
