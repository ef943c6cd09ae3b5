(** * C48: multi-head location-aware attention (attentions.py, MultiHeadLocationAwareAttention). *)
From Coq Require Import Reals List Bool Arith Lia Lra.
From Verif Require Import Spec Tensor Convolution Layers Attention ObserveAttention SumFacts TensorFacts AttentionFacts Prop_Attention.
Import ListNotations.
Local Open Scope R_scope.

(** Weights for [N] heads of size [d] over [H] features and [Co] convolution channels. *)
Record ml_weights (l : mh_location) (N d H Co : nat) : Prop := mkMLW {
  mlw_heads : ml_num_heads l = N; mlw_d : ml_dim l = d;
  mlw_conv : shape (ml_conv_w l) = [Co; N; 3%nat];
  mlw_loc : shape (ml_loc_proj l) = [d; Co];
  mlw_query : shape (ml_query_proj l) = [(N * d)%nat; H];
  mlw_value : shape (ml_value_proj l) = [(N * d)%nat; H];
  mlw_score : shape (ml_score_w l) = [1%nat; d];
  mlw_bias : shape (ml_bias l) = [d] }.

(** Projected features: entry [o] of sample [b], time [t]. *)
Definition projected (H : nat) (w x : tensor R) (b t o : nat) : R := rsum H (fun k => at_ x [b; t; k] * at_ w [o; k]).

(** Energy of the previous weights around time [t], component [c]. *)
Definition location_energy (l : mh_location) (N T Co : nat) (last : option (tensor R)) (b t c : nat) : R :=
  tanh (rsum Co (fun o =>
    (rsum N (fun n => around T (fun i => at_ (ml_conv_w l) [o; n; i]) (fun t => match last with Some x => at_ x [b; n; t] | None => 0 end) t) +
     at_ (ml_conv_b l) [o]) * at_ (ml_loc_proj l) [c; o])).

(** Score of time [t] in head [h] of sample [b]. *)
Definition location_score (l : mh_location) (N d H T Co : nat) (q v : tensor R) (last : option (tensor R)) (h b t : nat) : R :=
  affine d (ml_score_w l) (ml_score_b l) (fun c => tanh (
    projected H (ml_value_proj l) v b t (h * d + c) + projected H (ml_query_proj l) q b 0 (h * d + c) +
    location_energy l N T Co last b t c + at_ (ml_bias l) [c])) 0.

Lemma around_conv T (w x : nat -> R) j : (j < T)%nat ->
  rsum 3 (fun i => w i * (if (Nat.leb 1 (j + i) && Nat.ltb (j + i - 1) T)%bool then x (j + i - 1)%nat else 0)) = around T w x j.
Proof.
  intros Hj. cbn [rsum]. unfold around.
  replace (j + 0 - 1)%nat with (j - 1)%nat by lia. replace (j + 1 - 1)%nat with j by lia. replace (j + 2 - 1)%nat with (j + 1)%nat by lia.
  destruct (Nat.eqb_spec j 0) as [->|Hj0].
  - cbn [Nat.leb Nat.add andb]. destruct (Nat.ltb_spec 0 T); [|lia]. destruct (Nat.ltb_spec 1 T); ring.
  - destruct (Nat.leb_spec 1 (j + 0)); [|lia]. destruct (Nat.leb_spec 1 (j + 1)); [|lia]. destruct (Nat.leb_spec 1 (j + 2)); [|lia]. cbn [andb].
    destruct (Nat.ltb_spec (j - 1) T); [|lia]. destruct (Nat.ltb_spec j T); [|lia]. destruct (Nat.ltb_spec (j + 1) T); ring.
Qed.

(** What MultiHeadLocationAwareAttention computes, for one query per sample: the weight of time [t] in head [h] multiplies
    the projected value of time [(t * N + h) mod T] in head [(t * N + h) / T]. *)
Theorem C48_multi_head_location : forall l N d H Co q v last B T,
  ml_weights l N d H Co -> (1 <= B)%nat -> (1 <= N)%nat -> (1 <= d)%nat -> (1 <= T)%nat ->
  shape q = [B; 1%nat; H] -> shape v = [B; T; H] -> (forall x, last = Some x -> shape x = [B; N; T]) ->
  exists context attn, mh_location_forward l q v last = Ok (context, attn) /\
    shape context = [B; 1%nat; (N * d)%nat] /\ shape attn = [B; N; T] /\
    forall h b, (h < N)%nat -> (b < B)%nat ->
      exists a, attends T (fun _ => true) (location_score l N d H T Co q v last h b) a /\
        (forall t, (t < T)%nat -> at_ attn [b; h; t] = Some (a t)) /\
        (forall c, (c < d)%nat -> at_ context [b; 0%nat; (h * d + c)%nat] =
           Some (rsum T (fun t => a t * projected H (ml_value_proj l) v b ((t * N + h) mod T) ((t * N + h) / T * d + c)))).
Proof.
  intros l N d H Co q v last B T [Hn Hdm Scw Slw Swq Swv Ssw Sbi] HB HN Hd HT Sq Sv Sl.
  unfold mh_location_forward, size. rewrite Hn, Hdm, Sv. cbn [nth_error rbind].
  set (la := match last with Some a => a | None => zeros [B; N; T] end).
  assert (Sla : shape la = [B; N; T]) by (unfold la; destruct last as [t|]; [now apply Sl|reflexivity]).
  destruct (conv3_ok (ml_conv_w l) (ml_conv_b l) la B N T Co Scw Sla HT) as (cv & -> & Scv & Vcv). cbn [rbind].
  assert (Spc : shape (permute [0; 2; 1]%nat cv) = [B; T; Co]) by (unfold permute; cbn [shape]; rewrite Scv; reflexivity).
  assert (Vpc : forall b t h, at_ (permute [0; 2; 1]%nat cv) [b; t; h] = at_ cv [b; h; t]) by (intros; unfold permute; cbn [at_]; rewrite Scv; reflexivity).
  set (ca := permute [0; 2; 1]%nat cv) in *.
  destruct (linear0_3 (ml_loc_proj l) ca B T Co d Spc Slw) as (lo & -> & Slo & Vlo). cbn [rbind].
  set (lt := tmap tanh lo).
  assert (Srp : shape (repeat1 N (unsqueeze 1 lt)) = [B; (N * 1)%nat; T; d]) by (unfold repeat1, unsqueeze, lt; cbn [shape tmap]; rewrite Slo; reflexivity).
  assert (Vrp : forall b h t c, at_ (repeat1 N (unsqueeze 1 lt)) [b; h; t; c] = tanh (at_ lo [b; t; c])).
  { intros b h t c. unfold repeat1, unsqueeze, lt. cbn [shape tmap]. rewrite Slo. reflexivity. }
  set (rp := repeat1 N (unsqueeze 1 lt)) in *.
  destruct (view_infer_ok rp [] [T; d] (B * N)%nat) as (lv & -> & Slv & Vlv); [cbn; nia|unfold numel; rewrite Srp; cbn; ring|]. cbn [rbind app] in *.
  (* query and value by heads *)
  assert (Proj : forall x w X, shape x = [B; X; H] -> shape w = [(N * d)%nat; H] -> exists y1 y2 y3,
            linear0 w x = Ok y1 /\ view_infer [B] [N; d] y1 = Ok y2 /\ permute_ [0; 2; 1; 3]%nat y2 = Ok y3 /\ shape y3 = [B; N; X; d] /\
            forall b h t c, (b < B)%nat -> (h < N)%nat -> (t < X)%nat -> (c < d)%nat -> at_ y3 [b; h; t; c] = projected H w x b t (h * d + c)).
  { intros x w X Sx Sw. destruct (linear0_3 w x B X H (N * d)%nat Sx Sw) as (y1 & E1 & S1 & V1).
    destruct (view_heads y1 B X N d HB HN Hd S1) as (y2 & E2 & S2 & V2).
    pose proof (permute4_ok y2 [0; 2; 1; 3]%nat _ _ _ _ S2 eq_refl) as E3. destruct (permute_0213 y2 _ _ _ _ S2) as (S3 & V3).
    exists y1, y2, (permute [0; 2; 1; 3]%nat y2). do 4 (split; [assumption|]). intros b h t c Hb Hh Ht Hc. rewrite V3, V2, V1 by auto. reflexivity. }
  destruct (Proj q _ 1%nat Sq Swq) as (q1 & q2 & q3 & -> & Eq2 & Eq3 & Sq3 & Vq3). cbn [rbind]. rewrite Eq2. cbn [rbind]. rewrite Eq3. cbn [rbind].
  destruct (Proj v _ T Sv Swv) as (v1 & v2 & v3 & -> & Ev2 & Ev3 & Sv3 & Vv3). cbn [rbind]. rewrite Ev2. cbn [rbind]. rewrite Ev3. cbn [rbind].
  destruct (view_infer_ok q3 [] [1%nat; d] (B * N)%nat) as (q4 & -> & Sq4 & Vq4); [cbn; nia|unfold numel; rewrite Sq3; cbn; ring|]. cbn [rbind app] in *.
  destruct (view_infer_ok v3 [] [T; d] (B * N)%nat) as (v4 & -> & Sv4 & Vv4); [cbn; nia|unfold numel; rewrite Sv3; cbn; ring|]. cbn [rbind app] in *.
  destruct (bsum3 Rplus v4 q4 (B * N) T 1 d Sv4 Sq4 ltac:(tauto)) as (s1 & -> & Ss1 & Vs1). cbn [rbind Nat.eqb] in *.
  destruct (bsum3 Rplus s1 lv (B * N) T T d Ss1 Slv ltac:(tauto)) as (s2 & -> & Ss2 & Vs2). cbn [rbind].
  destruct (bsum_vec Rplus s2 (ml_bias l) (B * N) T d Ss2 Sbi) as (s3 & -> & Ss3 & Vs3). cbn [rbind].
  destruct (linear3_ok (ml_score_w l) (ml_score_b l) (tmap tanh s3) (B * N) T d 1 Ss3 Ssw) as (s4 & -> & Ss4 & Vs4). cbn [rbind].
  destruct (squeeze_last_ok s4 (B * N) T Ss4) as (Ss5 & Vs5). rewrite Ss4 in Ss5, Vs5. cbn [length Nat.sub] in Ss5, Vs5. set (s5 := squeeze 2 s4) in *.
  assert (Sa : shape (softmax_last (scores s5)) = [(B * N)%nat; T]) by exact Ss5.
  destruct (reshape_ok v4 [B; T; N; d]) as (v5 & -> & Sv5 & Vv5); [unfold numel; rewrite Sv4; cbn; ring|]. cbn [rbind].
  rewrite (permute4_ok v5 [0; 2; 1; 3]%nat _ _ _ _ Sv5 eq_refl). cbn [rbind]. destruct (permute_0213 v5 _ _ _ _ Sv5) as (Sv6 & Vv6). set (v6 := permute _ v5) in *.
  destruct (view_infer_ok v6 [] [T; d] (B * N)%nat) as (v7 & -> & Sv7 & Vv7); [cbn; nia|unfold numel; rewrite Sv6; cbn; ring|]. cbn [rbind app] in *.
  destruct (weigh_ok (softmax_last (scores s5)) v7 (B * N) T d Sa Sv7) as (ctx & -> & Sc & Vc). cbn [rbind].
  destruct (view_infer_ok ctx [B] [(N * d)%nat] 1%nat) as (c1 & -> & Sc1 & Vc1); [cbn; nia|unfold numel; rewrite Sc; cbn; ring|]. cbn [rbind app] in *.
  destruct (view_infer_ok (softmax_last (scores s5)) [B; N] [] T) as (a1 & -> & Sa1 & Va1); [cbn; nia|unfold numel; rewrite Sa; cbn; ring|]. cbn [rbind app] in *.
  exists c1, a1. split; [reflexivity|]. split; [exact Sc1|]. split; [exact Sa1|]. intros h b Hh Hb.
  assert (Hs : (b * N + h < B * N)%nat) by nia.
  destruct (softmax2_at s5 (B * N) T (b * N + h)%nat Ss5 HT) as (a & Aa & Ea).
  exists a. split; [|split].
  - refine (attends_ext _ _ _ _ _ _ _ _ _ _ Aa); auto. intros t Ht _. rewrite Vs5, Vs4. unfold location_score, affine. f_equal. apply rsum_ext. intros c Hc.
    f_equal. cbn [tmap at_]. f_equal. rewrite Vs3, Vs2, Vs1 by auto.
    rewrite (Vv4 [(b * N + h)%nat; t; c] [b; h; t; c]); [|rewrite Sv3; cbn; auto|rewrite Sv3; cbn; ring].
    rewrite (Vq4 [(b * N + h)%nat; 0%nat; c] [b; h; 0%nat; c]); [|rewrite Sq3; cbn; auto|rewrite Sq3; cbn; ring].
    replace (if Nat.eqb T 1 then 0 else t)%nat with t by (destruct (Nat.eqb_spec T 1); lia).
    rewrite (Vlv [(b * N + h)%nat; t; c] [b; h; t; c]); [|rewrite Srp; cbn; repeat split; auto; lia|rewrite Srp; cbn; ring].
    rewrite Vv3, Vq3 by auto. rewrite Vrp, Vlo. f_equal. f_equal. unfold location_energy. f_equal. apply rsum_ext. intros o _. f_equal.
    rewrite Vpc, Vcv. f_equal. apply rsum_ext. intros n _. rewrite <- around_conv by auto. apply rsum_ext. intros i _. f_equal.
    destruct (_ && _)%bool; [|reflexivity]. unfold la. destruct last; reflexivity.
  - intros t Ht. rewrite <- Ea. apply Va1; rewrite Sa; cbn; [auto|ring].
  - intros c Hc. rewrite (Vc1 [b; 0%nat; (h * d + c)%nat] [(b * N + h)%nat; 0%nat; c]); [|rewrite Sc; cbn; auto|rewrite Sc; cbn; ring].
    rewrite Vc, (dotN_some _ _ _ a) by auto. f_equal. apply rsum_ext. intros t Ht. f_equal.
    rewrite (Vv7 [(b * N + h)%nat; t; c] [b; h; t; c]); [|rewrite Sv6; cbn; auto|rewrite Sv6; cbn; ring]. rewrite Vv6.
    set (m := (t * N + h)%nat). assert (D : m = (m / T * T + m mod T)%nat) by (rewrite Nat.mul_comm; apply Nat.div_mod; lia).
    assert (Hm : (m mod T < T)%nat) by (apply Nat.mod_upper_bound; lia).
    assert (Hq : (m / T < N)%nat) by (apply Nat.div_lt_upper_bound; unfold m; nia).
    rewrite (Vv5 [b; t; h; c] [(b * N + m / T)%nat; (m mod T)%nat; c]); [|rewrite Sv4; cbn; repeat split; auto; nia|].
    + rewrite (Vv4 [(b * N + m / T)%nat; (m mod T)%nat; c] [b; (m / T)%nat; (m mod T)%nat; c]); [|rewrite Sv3; cbn; auto|rewrite Sv3; cbn; ring].
      now rewrite Vv3.
    + rewrite Sv4. cbn [ravel prodn]. transitivity (b * (T * (N * (d * 1))) + m * d + c)%nat; [unfold m; ring|]. rewrite D at 1. ring.
Qed.
Print Assumptions C48_multi_head_location.

(** So with a single head, or a single time step, weights and values belong together. *)
Theorem C48_aligned : forall l N d H Co q v last B T,
  ml_weights l N d H Co -> (1 <= B)%nat -> (1 <= N)%nat -> (1 <= d)%nat -> (1 <= T)%nat -> N = 1%nat \/ T = 1%nat ->
  shape q = [B; 1%nat; H] -> shape v = [B; T; H] -> (forall x, last = Some x -> shape x = [B; N; T]) ->
  exists context attn, mh_location_forward l q v last = Ok (context, attn) /\
    forall h b, (h < N)%nat -> (b < B)%nat ->
      exists a, (forall t, (t < T)%nat -> at_ attn [b; h; t] = Some (a t)) /\
        (forall c, (c < d)%nat -> at_ context [b; 0%nat; (h * d + c)%nat] =
           Some (rsum T (fun t => a t * projected H (ml_value_proj l) v b t (h * d + c)))).
Proof.
  intros l N d H Co q v last B T Hw HB HN Hd HT Hyp Sq Sv Sl.
  destruct (C48_multi_head_location l N d H Co q v last B T Hw HB HN Hd HT Sq Sv Sl) as (c & a & E & _ & _ & V).
  exists c, a. split; [exact E|]. intros h b Hh Hb. destruct (V h b Hh Hb) as (w & _ & Va & Vc). exists w. split; auto.
  intros c0 Hc. rewrite Vc by auto. f_equal. apply rsum_ext. intros t Ht. f_equal. f_equal.
  - destruct Hyp as [->| ->]; [replace h with 0%nat by lia; rewrite Nat.mul_1_r, Nat.add_0_r, Nat.mod_small; lia|rewrite Nat.mod_1_r; lia].
  - f_equal. f_equal. destruct Hyp as [->| ->]; [replace h with 0%nat by lia; rewrite Nat.mul_1_r, Nat.add_0_r, Nat.div_small; lia|rewrite Nat.div_1_r; nia].
Qed.
Print Assumptions C48_aligned.

(** With two or more heads and time steps they do not: whatever the query and the other weights, when only head 0 reads the
    value and only time 1 carries any, head 0 puts a positive weight on time 1 and yet its context is zero. *)
Theorem C48_aligned_refuted : forall l N d Co q B T,
  ml_weights l N d 1 Co -> (1 <= B)%nat -> (2 <= N)%nat -> (1 <= d)%nat -> (2 <= T)%nat -> shape q = [B; 1%nat; 1%nat] ->
  (forall o, at_ (ml_value_proj l) [o; 0%nat] = if Nat.eqb o 0 then 1 else 0) ->
  exists v context attn w, shape v = [B; T; 1%nat] /\
    (forall t, projected 1 (ml_value_proj l) v 0 t 0 = if Nat.eqb t 1 then 1 else 0) /\
    mh_location_forward l q v None = Ok (context, attn) /\
    at_ attn [0; 0; 1]%nat = Some w /\ 0 < w /\ at_ context [0; 0; 0]%nat = Some 0.
Proof.
  intros l N d Co q B T Hw HB HN Hd HT Sq Hv. set (v := mkT [B; T; 1%nat] (fun ix => if Nat.eqb (nth 1 ix 0%nat) 1 then 1 else 0)).
  destruct (C48_multi_head_location l N d 1 Co q v None B T Hw) as (c & a & E & _ & _ & V); auto; try lia; [discriminate|].
  destruct (V 0%nat 0%nat) as (w & A & Va & Vc); try lia.
  exists v, c, a, (w 1%nat). split; [reflexivity|].
  assert (P : forall t o, projected 1 (ml_value_proj l) v 0 t o = (if Nat.eqb t 1 then 1 else 0) * (if Nat.eqb o 0 then 1 else 0)).
  { intros t o. unfold projected. cbn [rsum]. rewrite Hv. unfold v. cbn [at_ nth]. ring. }
  split; [intros t; rewrite P; cbn [Nat.eqb]; ring|]. split; [exact E|]. split; [apply Va; lia|].
  split; [apply (attends_pos _ _ _ _ A); [lia|reflexivity]|].
  pose proof (Vc 0%nat ltac:(lia)) as C0. cbn [Nat.mul Nat.add] in C0. rewrite C0. f_equal.
  rewrite (rsum_ext _ _ (fun _ => 0)); [induction T; [reflexivity|]; cbn [rsum]; clear; induction T; cbn [rsum]; lra|].
  intros t Ht. rewrite P, !Nat.add_0_r. set (m := (t * N)%nat).
  destruct (Nat.eqb_spec (m mod T) 1) as [E1|]; [|ring]. destruct (Nat.eqb_spec (m / T * d) 0) as [E2|]; [|ring].
  exfalso. assert (Z : (m / T = 0)%nat) by nia. pose proof (Nat.div_mod m T ltac:(lia)). rewrite Z, E1 in H. unfold m in H. destruct t; nia.
Qed.
Print Assumptions C48_aligned_refuted.

(** Layers meeting the hypotheses exist, for any number of heads. *)
Definition demo_location (N : nat) : mh_location :=
  mkMHLocation N 2 (mkT [4; N; 3]%nat (fun ix => INR (nth 2 ix 0%nat))) (zeros [4]%nat) (mkT [2; 4]%nat (fun ix => INR (nth 1 ix 0%nat)))
    (mkT [N * 2; 1]%nat (fun ix => INR (nth 0 ix 0%nat))) (mkT [N * 2; 1]%nat (fun ix => if Nat.eqb (nth 0 ix 0%nat) 0 then 1 else 0))
    (mkT [1; 2]%nat (fun ix => 1 + INR (nth 1 ix 0%nat))) (zeros [1]%nat) (zeros [2]%nat).
Lemma demo_location_weights N : ml_weights (demo_location N) N 2 1 4.
Proof. constructor; reflexivity. Qed.
Example C48_case : exists v context attn w, shape v = [2; 3; 1]%nat /\
  (forall t, projected 1 (ml_value_proj (demo_location 2)) v 0 t 0 = if Nat.eqb t 1 then 1 else 0) /\
  mh_location_forward (demo_location 2) (mkT [2; 1; 1]%nat (fun _ => 5)) v None = Ok (context, attn) /\
  at_ attn [0; 0; 1]%nat = Some w /\ 0 < w /\ at_ context [0; 0; 0]%nat = Some 0.
Proof. apply (C48_aligned_refuted (demo_location 2) 2 2 4 _ 2 3 (demo_location_weights 2)); try lia; reflexivity. Qed.
Example C48_aligned_case : exists context attn a,
  let v := mkT [2; 3; 1]%nat (fun ix => INR (nth 1 ix 0%nat)) in
  mh_location_forward (demo_location 1) (mkT [2; 1; 1]%nat (fun _ => 5)) v (Some (mkT [2; 1; 3]%nat (fun _ => 1))) = Ok (context, attn) /\
  at_ attn [1; 0; 1]%nat = Some (a 1%nat) /\ at_ attn [1; 0; 2]%nat = Some (a 2%nat) /\ at_ context [1; 0; 0]%nat = Some (a 1%nat + 2 * a 2%nat).
Proof.
  cbv zeta. set (v := mkT [2; 3; 1]%nat _). set (q := mkT [2; 1; 1]%nat _). set (la := mkT [2; 1; 3]%nat _).
  destruct (C48_aligned (demo_location 1) 1 2 1 4 q v (Some la) 2 3 (demo_location_weights 1)) as (c & a & E & V); try lia; try reflexivity;
    [intros x Ex; now injection Ex as <-|].
  destruct (V 0%nat 1%nat) as (w & Va & Vc); try lia. exists c, a, w. split; [exact E|]. split; [apply Va; lia|]. split; [apply Va; lia|].
  pose proof (Vc 0%nat ltac:(lia)) as C0. cbn [Nat.mul Nat.add] in C0. rewrite C0. f_equal. unfold projected, v, demo_location. cbn [rsum at_ nth ml_value_proj Nat.eqb INR]. lra.
Qed.
