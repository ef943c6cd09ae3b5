(** * Facts about the torch operations and the softmax used by attention modules. *)
From Coq Require Import Reals List Bool Arith Lia Lra.
From Verif Require Import Spec Tensor Convolution Layers Attention ObserveAttention SumFacts TensorFacts.
Import ListNotations.
Local Open Scope R_scope.

(** ** Softmax *)
Lemma rsum_pos n f : (forall i, (i < n)%nat -> 0 <= f i) -> (exists j, (j < n)%nat /\ 0 < f j) -> 0 < rsum n f.
Proof.
  intros H (j & Hj & Pj). induction n as [|n IH]; [lia|]. cbn. pose proof (H n ltac:(lia)).
  destruct (Nat.eq_dec j n) as [->|Hn].
  - pose proof (rsum_nonneg n f ltac:(intros; apply H; lia)). lra.
  - pose proof (IH ltac:(intros; apply H; lia) ltac:(lia)). lra.
Qed.
Lemma exp_score_nonneg s : 0 <= exp_score s.
Proof. destruct s; cbn; [left; apply exp_pos|lra]. Qed.
Definition score_value (s : score) : R := match s with Fin r => r | NegInf => 0 end.

Lemma softmax_row_attends n s : (exists j, (j < n)%nat /\ is_fin (s j) = true) ->
  exists a, attends n (fun j => is_fin (s j)) (fun j => score_value (s j)) a /\ forall j, softmax_row n s j = Some (a j).
Proof.
  intros (j0 & Hj0 & F0). set (Z := rsum n (fun i => exp_score (s i))).
  assert (Zp : 0 < Z).
  { apply rsum_pos; [intros; apply exp_score_nonneg|]. exists j0. split; auto. destruct (s j0); [apply exp_pos|discriminate]. }
  exists (fun j => exp_score (s j) / Z). split.
  - constructor.
    + intros j _. apply Rmult_le_pos; [apply exp_score_nonneg|left; now apply Rinv_0_lt_compat].
    + unfold Rdiv. rewrite rsum_scal_r. fold Z. field. lra.
    + intros j _ E. destruct (s j); [discriminate|]. cbn. field. lra.
    + intros i j _ _ Ei Ej. destruct (s i); [|discriminate]. destruct (s j); [|discriminate]. cbn. field. lra.
  - intros j. unfold softmax_row. replace (existsb _ _) with true; [reflexivity|]. symmetry. apply existsb_exists. exists j0.
    split; [apply in_seq; lia|exact F0].
Qed.
Lemma softmax_row_nan n s : (forall j, (j < n)%nat -> is_fin (s j) = false) -> forall j, softmax_row n s j = None.
Proof.
  intros H j. unfold softmax_row. destruct (existsb _ _) eqn:E; [|reflexivity]. apply existsb_exists in E. destruct E as (i & Hi & E).
  apply in_seq in Hi. rewrite H in E by lia. discriminate.
Qed.
Lemma attends_ext n al al' s s' a a' : (forall j, (j < n)%nat -> al j = al' j) -> (forall j, (j < n)%nat -> al j = true -> s j = s' j) ->
  (forall j, (j < n)%nat -> a j = a' j) -> attends n al s a -> attends n al' s' a'.
Proof.
  intros E1 E2 E3 [H1 H2 H3 H4]. constructor.
  - intros j Hj. rewrite <- E3 by auto. auto.
  - rewrite <- H2. apply rsum_ext. intros. now rewrite E3.
  - intros j Hj Ha. rewrite <- E3 by auto. apply H3; auto. now rewrite E1.
  - intros i j Hi Hj Ai Aj. rewrite <- E1 in Ai, Aj by auto. rewrite <- !E3, <- !E2 by auto. now apply H4.
Qed.

(** The distribution is determined by the scores. *)
Lemma attends_explicit n al s a : attends n al s a -> forall j, (j < n)%nat ->
  a j = (if al j then exp (s j) else 0) / rsum n (fun i => if al i then exp (s i) else 0).
Proof.
  intros [H1 H2 H3 H4] j Hj. set (e := fun i => if al i then exp (s i) else 0). fold (e j).
  assert (R : forall i, (i < n)%nat -> a i * e j = a j * e i).
  { intros i Hi. unfold e. destruct (al i) eqn:Ei, (al j) eqn:Ej; [now apply H4|rewrite (H3 j) by auto; ring|rewrite (H3 i) by auto; ring|].
    now rewrite (H3 i), (H3 j) by auto. }
  assert (S : e j = a j * rsum n e).
  { rewrite <- rsum_scal. rewrite <- (rsum_ext n (fun i => a i * e j)) by (intros; now apply R). rewrite rsum_scal_r, H2. ring. }
  assert (Z : 0 < rsum n e).
  { assert (E0 : forall i, (i < n)%nat -> 0 <= e i) by (intros i _; unfold e; destruct (al i); [left; apply exp_pos|lra]).
    destruct (rsum_nonneg n e E0) as [Z|Z]; auto. exfalso.
    assert (A0 : forall i, (i < n)%nat -> a i = 0).
    { intros i Hi. apply H3; auto. destruct (al i) eqn:Ei; auto. exfalso. pose proof (rsum_pos n e E0) as P.
      assert (0 < rsum n e); [|lra]. apply P. exists i. split; auto. unfold e. rewrite Ei. apply exp_pos. }
    rewrite (rsum_ext n a (fun _ => 0)), rsum_0 in H2 by auto. lra. }
  rewrite S. field. lra.
Qed.
Lemma attends_unique n al s a a' : attends n al s a -> attends n al s a' -> forall j, (j < n)%nat -> a j = a' j.
Proof. intros H H' j Hj. now rewrite (attends_explicit _ _ _ _ H j Hj), (attends_explicit _ _ _ _ H' j Hj). Qed.

Lemma attends_pos n al s a : attends n al s a -> forall j, (j < n)%nat -> al j = true -> 0 < a j.
Proof.
  intros H j Hj A. rewrite (attends_explicit _ _ _ _ H j Hj), A. apply Rmult_lt_0_compat; [apply exp_pos|]. apply Rinv_0_lt_compat.
  apply rsum_pos; [intros i _; destruct (al i); [left; apply exp_pos|lra]|]. exists j. rewrite A. split; auto. apply exp_pos.
Qed.

(** ** NaN-aware sums *)
Lemma numsum_some n f g : (forall i, (i < n)%nat -> f i = Some (g i)) -> numsum n f = Some (rsum n g).
Proof. induction n as [|n IH]; intros H; [reflexivity|]. cbn. rewrite IH, H by (intros; try apply H; lia). reflexivity. Qed.
Lemma numsum_none n f j : (j < n)%nat -> f j = None -> numsum n f = None.
Proof.
  induction n as [|n IH]; intros Hj E; [lia|]. cbn. destruct (Nat.eq_dec j n) as [->|Hn]; [rewrite E; now destruct (numsum n f)|].
  rewrite IH by (auto; lia). reflexivity.
Qed.
Lemma dotN_some m f g a : (forall i, (i < m)%nat -> f i = Some (a i)) -> dotN m f g = Some (rsum m (fun k => a k * g k)).
Proof. intros H. apply numsum_some. intros i Hi. now rewrite H. Qed.
Lemma dotN_none m f g j : (j < m)%nat -> f j = None -> dotN m f g = None.
Proof. intros Hj E. apply (numsum_none _ _ j Hj). now rewrite E. Qed.

(** ** Views *)
Lemma reshape_ok {A} (t : tensor A) s : prodn s = numel t ->
  exists y, reshape s t = Ok y /\ shape y = s /\
    forall ix jx, valid (shape t) jx -> ravel s ix = ravel (shape t) jx -> at_ y ix = at_ t jx.
Proof.
  intros E. unfold reshape. rewrite E, Nat.eqb_refl. eexists. split; [reflexivity|]. split; [reflexivity|].
  intros ix jx V R. cbn. now rewrite R, unravel_ravel.
Qed.
Lemma view_infer_ok {A} (t : tensor A) s1 s2 q : (0 < prodn s1 * prodn s2)%nat -> numel t = (prodn s1 * prodn s2 * q)%nat ->
  exists y, view_infer s1 s2 t = Ok y /\ shape y = s1 ++ q :: s2 /\
    forall ix jx, valid (shape t) jx -> ravel (s1 ++ q :: s2) ix = ravel (shape t) jx -> at_ y ix = at_ t jx.
Proof.
  intros P E. unfold view_infer. destruct (Nat.eqb_spec (prodn s1 * prodn s2) 0) as [C|_]; [lia|].
  rewrite E. rewrite (Nat.mul_comm (prodn s1 * prodn s2) q), Nat.mod_mul, Nat.div_mul by lia. cbn [Nat.eqb].
  apply reshape_ok. rewrite E.
  assert (Q : forall a b, prodn (a ++ b) = (prodn a * prodn b)%nat) by (induction a; intros; cbn; [lia|rewrite IHa; lia]).
  rewrite Q. cbn [prodn]. lia.
Qed.

Lemma bmm_ok {A} dot (x : tensor A) y b n m p : shape x = [b; n; m] -> shape y = [b; m; p] ->
  exists z, bmm_ dot x y = Ok z /\ shape z = [b; n; p] /\
    forall i r c, at_ z [i; r; c] = dot m (fun k => at_ x [i; r; k]) (fun k => at_ y [i; k; c]).
Proof. intros Sx Sy. unfold bmm_. rewrite Sx, Sy, !Nat.eqb_refl. eexists. split; [reflexivity|]. split; [reflexivity|]. reflexivity. Qed.
Lemma permute3_ok {A} (t : tensor A) a b c : shape t = [a; b; c] ->
  exists y, permute_ [0; 2; 1]%nat t = Ok y /\ shape y = [a; c; b] /\ forall i j k, at_ y [i; j; k] = at_ t [i; k; j].
Proof. intros S. unfold permute_. rewrite S. eexists. split; [reflexivity|]. unfold permute. rewrite S. now split. Qed.

Lemma valid4 a b c d ix : valid [a; b; c; d] ix -> exists i j k l, ix = [i; j; k; l] /\ (i < a /\ j < b /\ k < c /\ l < d)%nat.
Proof. destruct ix as [|i [|j [|k [|l [|? ?]]]]]; cbn; intros H; try tauto. exists i, j, k, l. tauto. Qed.

(** ** Scaled dot product *)
Lemma scaled_dot_ok dim q k v mask B Q K D Dv :
  shape q = [B; Q; D] -> shape k = [B; K; D] -> shape v = [B; K; Dv] ->
  (forall m, mask = Some m -> numel m = (B * Q * K)%nat) ->
  exists ctx attn mk, scaled_dot_forward dim q k v mask = Ok (ctx, attn) /\ shape ctx = [B; Q; Dv] /\ shape attn = [B; Q; K] /\
    (mask = None -> forall b i j, mk b i j = false) /\
    (forall m, mask = Some m -> forall b i j jx, valid (shape m) jx -> ravel [B; Q; K] [b; i; j] = ravel (shape m) jx -> mk b i j = at_ m jx) /\
    forall b i, 
      ((exists j, (j < K)%nat /\ mk b i j = false) ->
       exists a, attends K (fun j => negb (mk b i j)) (fun j => rsum D (fun c => at_ q [b; i; c] * at_ k [b; j; c]) / sqrt (INR dim)) a /\
         (forall j, (j < K)%nat -> at_ attn [b; i; j] = Some (a j)) /\
         forall c, at_ ctx [b; i; c] = Some (rsum K (fun j => a j * at_ v [b; j; c]))) /\
      ((0 < K)%nat -> (forall j, (j < K)%nat -> mk b i j = true) ->
         (forall j, at_ attn [b; i; j] = None) /\ forall c, at_ ctx [b; i; c] = None).
Proof.
  intros Sq Sk Sv Hm. unfold scaled_dot_forward.
  destruct (permute3_ok k _ _ _ Sk) as (kt & -> & Skt & Vkt). cbn [rbind].
  destruct (bmm_ok dotR q kt B Q D K Sq Skt) as (s & Es & Ss & Vs). unfold bmm. rewrite Es. cbn [rbind].
  set (s' := tmap _ s). assert (Ss' : shape s' = [B; Q; K]) by exact Ss.
  assert (X : exists sm mk, match mask with None => Ok (scores s') | Some m => m <- reshape (shape s') m ;; Ok (mask_scores m s') end = Ok sm /\
            shape sm = [B; Q; K] /\
            (mask = None -> forall b i j, mk b i j = false) /\
            (forall m, mask = Some m -> forall b i j jx, valid (shape m) jx -> ravel [B; Q; K] [b; i; j] = ravel (shape m) jx -> mk b i j = at_ m jx) /\
            forall b i j, at_ sm [b; i; j] = if mk b i j then NegInf else Fin (at_ s' [b; i; j])).
  { destruct mask as [m|].
    - destruct (reshape_ok m [B; Q; K]) as (m' & Em & Sm & Vm); [rewrite (Hm m eq_refl); cbn; lia|]. rewrite Ss', Em. cbn [rbind].
      exists (mask_scores m' s'), (fun b i j => at_ m' [b; i; j]). split; [reflexivity|]. split; [exact Ss'|]. split; [discriminate|].
      split; [|reflexivity]. intros m0 E b i j jx V Rv. injection E as <-. now apply Vm.
    - exists (scores s'), (fun _ _ _ => false). split; [reflexivity|]. split; [exact Ss'|]. split; [reflexivity|]. split; [discriminate|]. reflexivity. }
  destruct X as (sm & mk & -> & Ssm & M0 & M1 & Vsm). cbn [rbind].
  set (attn := softmax_last sm). assert (Sa : shape attn = [B; Q; K]) by exact Ssm.
  destruct (bmm_ok dotN attn v B Q K Dv Sa Sv) as (ctx & Ec & Sc & Vc). unfold bmm_num. rewrite Ec. cbn [rbind].
  exists ctx, attn, mk. do 5 (split; auto). intros b i.
  assert (Va : forall j, at_ attn [b; i; j] = softmax_row K (fun j => at_ sm [b; i; j]) j).
  { intros j. unfold attn, softmax_last. cbn [at_]. rewrite Ssm. reflexivity. }
  split.
  - intros (j0 & Hj0 & E0). destruct (softmax_row_attends K (fun j => at_ sm [b; i; j])) as (a & Aa & Ea).
    { exists j0. split; auto. now rewrite Vsm, E0. }
    exists a. split; [|split].
    + refine (attends_ext _ _ _ _ _ _ _ _ _ _ Aa); cbv beta.
      * intros j _. rewrite Vsm. now destruct (mk b i j).
      * intros j _ Fj. rewrite Vsm in *. destruct (mk b i j); [discriminate|]. cbn. rewrite Vs. unfold dotR. f_equal.
        apply rsum_ext. intros c _. now rewrite Vkt.
      * reflexivity.
    + intros j _. now rewrite Va, Ea.
    + intros c. rewrite Vc. apply dotN_some. intros j _. now rewrite Va, Ea.
  - intros HK Hall. assert (N : forall j, at_ attn [b; i; j] = None).
    { intros j. rewrite Va. apply softmax_row_nan. intros j' Hj'. now rewrite Vsm, Hall. }
    split; auto. intros c. rewrite Vc. apply (dotN_none _ _ _ 0 HK). apply N.
Qed.

(** ** Linear maps and broadcast sums of three-dimensional tensors *)
Lemma linear3_ok w bias x B T M O : shape x = [B; T; M] -> shape w = [O; M] ->
  exists y, Linear_forward w bias x = Ok y /\ shape y = [B; T; O] /\
    forall b t o, at_ y [b; t; o] = affine M w bias (fun k => at_ x [b; t; k]) o.
Proof.
  intros Sx Sw. unfold Linear_forward. rewrite Sw, Sx. cbn [rev app]. rewrite Nat.eqb_refl. eexists. split; [reflexivity|]. split; [reflexivity|].
  reflexivity.
Qed.
Lemma linear2_ok w bias x B M O : shape x = [B; M] -> shape w = [O; M] ->
  exists y, Linear_forward w bias x = Ok y /\ shape y = [B; O] /\
    forall b o, at_ y [b; o] = affine M w bias (fun k => at_ x [b; k]) o.
Proof.
  intros Sx Sw. unfold Linear_forward. rewrite Sw, Sx. cbn [rev app]. rewrite Nat.eqb_refl. eexists. split; [reflexivity|]. split; [reflexivity|].
  reflexivity.
Qed.
Lemma affine_zeros M w x o s : affine M w (zeros s) x o = rsum M (fun k => x k * at_ w [o; k]).
Proof. unfold affine. cbn. ring. Qed.
Lemma linear0_3 w x B T M O : shape x = [B; T; M] -> shape w = [O; M] ->
  exists y, linear0 w x = Ok y /\ shape y = [B; T; O] /\
    forall b t o, at_ y [b; t; o] = rsum M (fun k => at_ x [b; t; k] * at_ w [o; k]).
Proof.
  intros Sx Sw. destruct (linear3_ok w (zeros [hd 0%nat (shape w)]) x B T M O Sx Sw) as (y & E & S & V).
  exists y. split; auto. split; auto. intros b t o. now rewrite V, affine_zeros.
Qed.
Lemma linear0_2 w x B M O : shape x = [B; M] -> shape w = [O; M] ->
  exists y, linear0 w x = Ok y /\ shape y = [B; O] /\
    forall b o, at_ y [b; o] = rsum M (fun k => at_ x [b; k] * at_ w [o; k]).
Proof.
  intros Sx Sw. destruct (linear2_ok w (zeros [hd 0%nat (shape w)]) x B M O Sx Sw) as (y & E & S & V).
  exists y. split; auto. split; auto. intros b o. now rewrite V, affine_zeros.
Qed.

Lemma bsize_1 b : bsize 1 b = Some b.
Proof. unfold bsize. destruct (Nat.eqb_spec 1 b); [now subst|]. destruct (Nat.eqb_spec b 1); [now subst|]. reflexivity. Qed.
Lemma bsize_1r a : bsize a 1 = Some a.
Proof. apply bsize_r. now right. Qed.

(** Broadcast sum of [B;T;H] and [B;T';H] for T' = T or 1, or [H]. *)
Lemma bsum3 f x y B T T' H : shape x = [B; T; H] -> shape y = [B; T'; H] -> T' = T \/ T' = 1%nat ->
  exists z, broadcast2 f x y = Ok z /\ shape z = [B; T; H] /\
    forall b t h, (b < B)%nat -> (t < T)%nat -> (h < H)%nat -> at_ z [b; t; h] = f (at_ x [b; t; h]) (at_ y [b; (if Nat.eqb T' 1 then 0 else t)%nat; h]).
Proof.
  intros Sx Sy HT. unfold broadcast2. rewrite Sx, Sy. unfold bshape. cbn [rev app bshape_rev].
  rewrite !bsize_refl, (bsize_r T T') by tauto. cbn [rev app].
  eexists. split; [reflexivity|]. split; [reflexivity|]. intros b t h Hb Ht Hh. cbn [at_].
  unfold bindex. cbn [length Nat.sub skipn bc_list]. rewrite !bc_id by auto. now unfold bc at 1.
Qed.
Lemma bsum_vec f x y B T H : shape x = [B; T; H] -> shape y = [H] ->
  exists z, broadcast2 f x y = Ok z /\ shape z = [B; T; H] /\
    forall b t h, (b < B)%nat -> (t < T)%nat -> (h < H)%nat -> at_ z [b; t; h] = f (at_ x [b; t; h]) (at_ y [h]).
Proof.
  intros Sx Sy. unfold broadcast2. rewrite Sx, Sy. unfold bshape. cbn [rev app bshape_rev].
  rewrite !bsize_refl. cbn [rev app].
  eexists. split; [reflexivity|]. split; [reflexivity|]. intros b t h Hb Ht Hh. cbn [at_].
  unfold bindex. cbn [length Nat.sub skipn bc_list]. now rewrite !bc_id by auto.
Qed.

(** One row of weights per sample, applied to the values. *)
Lemma weigh_ok (attn : tensor num) v B K Dv : shape attn = [B; K] -> shape v = [B; K; Dv] ->
  exists ctx, bmm_num (unsqueeze 1 attn) v = Ok ctx /\ shape ctx = [B; 1; Dv]%nat /\
    forall b r c, at_ ctx [b; r; c] = dotN K (fun j => at_ attn [b; j]) (fun j => at_ v [b; j; c]).
Proof.
  intros Sa Sv. assert (Su : shape (unsqueeze 1 attn) = [B; 1; K]%nat) by (unfold unsqueeze; cbn [shape]; now rewrite Sa).
  destruct (bmm_ok dotN (unsqueeze 1 attn) v B 1 K Dv Su Sv) as (z & E & S & V). exists z. split; [exact E|]. split; [exact S|].
  intros b r c. now rewrite V.
Qed.
Lemma squeeze_last_ok {A} (t : tensor A) B T : shape t = [B; T; 1]%nat ->
  shape (squeeze (length (shape t) - 1) t) = [B; T] /\ forall b i, at_ (squeeze (length (shape t) - 1) t) [b; i] = at_ t [b; i; 0%nat].
Proof. intros S. unfold squeeze. rewrite S. cbn. now split. Qed.
Lemma squeeze1_ok {A} (t : tensor A) B D : shape t = [B; 1; D]%nat ->
  shape (squeeze 1 t) = [B; D] /\ forall b c, at_ (squeeze 1 t) [b; c] = at_ t [b; 0%nat; c].
Proof. intros S. unfold squeeze. rewrite S. cbn. now split. Qed.
Lemma softmax2_at (t : tensor R) B K b : shape t = [B; K] -> (0 < K)%nat ->
  exists a, attends K (fun _ => true) (fun j => at_ t [b; j]) a /\ forall j, at_ (softmax_last (scores t)) [b; j] = Some (a j).
Proof.
  intros S HK. destruct (softmax_row_attends K (fun j => at_ (scores t) [b; j])) as (a & Aa & Ea); [exists 0%nat; split; auto|].
  exists a. split; [exact Aa|]. intros j. cbn [softmax_last at_ scores tmap shape]. rewrite S. apply Ea.
Qed.
Lemma conv3_ok w cb x B N T Co : shape w = [Co; N; 3]%nat -> shape x = [B; N; T] -> (1 <= T)%nat ->
  exists y, conv3 w cb x = Ok y /\ shape y = [B; Co; T] /\
    forall b o t, at_ y [b; o; t] = rsum N (fun c => rsum 3 (fun i => at_ w [o; c; i] *
      (if (Nat.leb 1 (t + i) && Nat.ltb (t + i - 1) T)%bool then at_ x [b; c; (t + i - 1)%nat] else 0))) + at_ cb [o].
Proof.
  intros Sw Sx HT. unfold conv3, conv1d. rewrite Sw, Sx, Nat.eqb_refl.
  assert (Ec : conv_size T 3 1 1 1 = Some T).
  { unfold conv_size. destruct (Nat.eqb_spec 1 0) as [C|_]; [lia|]. destruct (Nat.leb_spec (1 * (3 - 1) + 1) (T + 2 * 1)) as [_|C]; [|lia].
    f_equal. rewrite Nat.div_1_r. lia. }
  rewrite Ec. cbn [rbind shape]. eexists. split; [reflexivity|]. split; [reflexivity|]. intros b o t. cbn [at_ nth]. f_equal.
  apply rsum_ext. intros c _. apply rsum_ext. intros i _. f_equal. unfold padded. rewrite Nat.mul_1_r, Nat.mul_1_r. reflexivity.
Qed.

(** ** Heads *)
Lemma permute4_ok {A} (t : tensor A) p a b c d : shape t = [a; b; c; d] -> length p = 4%nat ->
  permute_ p t = Ok (permute p t).
Proof. intros S L. unfold permute_. now rewrite S, L. Qed.
Lemma permute_2013 {A} (t : tensor A) a b c d : shape t = [a; b; c; d] -> shape (permute [2; 0; 1; 3]%nat t) = [c; a; b; d] /\
  forall i j k l, at_ (permute [2; 0; 1; 3]%nat t) [k; i; j; l] = at_ t [i; j; k; l].
Proof. intros S. unfold permute. cbn [shape at_]. rewrite S. now split. Qed.
Lemma permute_1203 {A} (t : tensor A) a b c d : shape t = [a; b; c; d] -> shape (permute [1; 2; 0; 3]%nat t) = [b; c; a; d] /\
  forall i j k l, at_ (permute [1; 2; 0; 3]%nat t) [j; k; i; l] = at_ t [i; j; k; l].
Proof. intros S. unfold permute. cbn [shape at_]. rewrite S. now split. Qed.
Lemma permute_0213 {A} (t : tensor A) a b c d : shape t = [a; b; c; d] -> shape (permute [0; 2; 1; 3]%nat t) = [a; c; b; d] /\
  forall i j k l, at_ (permute [0; 2; 1; 3]%nat t) [i; k; j; l] = at_ t [i; j; k; l].
Proof. intros S. unfold permute. cbn [shape at_]. rewrite S. now split. Qed.
Lemma permute_0132 {A} (t : tensor A) a b c d : shape t = [a; b; c; d] -> shape (permute [0; 1; 3; 2]%nat t) = [a; b; d; c] /\
  forall i j k l, at_ (permute [0; 1; 3; 2]%nat t) [i; j; l; k] = at_ t [i; j; k; l].
Proof. intros S. unfold permute. cbn [shape at_]. rewrite S. now split. Qed.
Lemma permute_0231 {A} (t : tensor A) a b c d : shape t = [a; b; c; d] -> shape (permute [0; 2; 3; 1]%nat t) = [a; c; d; b] /\
  forall i j k l, at_ (permute [0; 2; 3; 1]%nat t) [i; k; l; j] = at_ t [i; j; k; l].
Proof. intros S. unfold permute. cbn [shape at_]. rewrite S. now split. Qed.

Ltac view_sizes := cbn [app prodn] in *; first [nia | ring | lia].

(** view(B, -1, N, d) of a projection. *)
Lemma view_heads {A} (y : tensor A) B T N d : (1 <= B)%nat -> (1 <= N)%nat -> (1 <= d)%nat -> shape y = [B; T; (N * d)%nat] ->
  exists z, view_infer [B] [N; d] y = Ok z /\ shape z = [B; T; N; d] /\
    forall b t h c, (b < B)%nat -> (t < T)%nat -> (h < N)%nat -> (c < d)%nat -> at_ z [b; t; h; c] = at_ y [b; t; (h * d + c)%nat].
Proof.
  intros HB HN Hd S. destruct (view_infer_ok y [B] [N; d] T) as (z & E & Sz & V); [cbn; nia|unfold numel; rewrite S; cbn; ring|].
  exists z. split; auto. split; auto. intros b t h c Hb Ht Hh Hc. apply V; rewrite S; cbn; [repeat split; nia|ring].
Qed.

Lemma split_heads_ok N d B w bias x T M : (1 <= B)%nat -> (1 <= N)%nat -> (1 <= d)%nat -> shape x = [B; T; M] -> shape w = [(N * d)%nat; M] ->
  exists y, split_heads N d B w bias x = Ok y /\ shape y = [(B * N)%nat; T; d] /\
    forall h b t c, (h < N)%nat -> (b < B)%nat -> (t < T)%nat -> (c < d)%nat ->
      at_ y [(h * B + b)%nat; t; c] = affine M w bias (fun k => at_ x [b; t; k]) (h * d + c).
Proof.
  intros HB HN Hd Sx Sw. unfold split_heads.
  destruct (linear3_ok w bias x B T M (N * d)%nat Sx Sw) as (y1 & -> & S1 & V1). cbn [rbind].
  destruct (view_heads y1 B T N d HB HN Hd S1) as (y2 & -> & S2 & V2). cbn [rbind].
  rewrite (permute4_ok y2 [2; 0; 1; 3]%nat _ _ _ _ S2 eq_refl). cbn [rbind]. destruct (permute_2013 y2 _ _ _ _ S2) as (S3 & V3).
  set (y3 := permute _ y2) in *.
  destruct (view_infer_ok y3 [(B * N)%nat] [d] T) as (y4 & E4 & S4 & V4); [cbn; nia|unfold numel; rewrite S3; cbn; ring|]. cbn [app] in *.
  exists y4. split; auto. split; auto. intros h b t c Hh Hb Ht Hc.
  rewrite (V4 [(h * B + b)%nat; t; c] [h; b; t; c]); [|rewrite S3; cbn; auto|rewrite S3; cbn; ring].
  rewrite V3, V2, V1 by auto. reflexivity.
Qed.

Lemma join_heads_ok {A} (x : tensor A) N d B Q : (1 <= B)%nat -> (1 <= N)%nat -> (1 <= d)%nat -> shape x = [(B * N)%nat; Q; d] ->
  exists y1 y2 y3, view_infer [N; B] [d] x = Ok y1 /\ permute_ [1; 2; 0; 3]%nat y1 = Ok y2 /\ view_infer [B] [(N * d)%nat] y2 = Ok y3 /\
    shape y3 = [B; Q; (N * d)%nat] /\
    forall h b t c, (h < N)%nat -> (b < B)%nat -> (t < Q)%nat -> (c < d)%nat -> at_ y3 [b; t; (h * d + c)%nat] = at_ x [(h * B + b)%nat; t; c].
Proof.
  intros HB HN Hd Sx.
  destruct (view_infer_ok x [N; B] [d] Q) as (y1 & E1 & S1 & V1); [cbn; nia|unfold numel; rewrite Sx; cbn; ring|]. cbn [app] in *.
  pose proof (permute4_ok y1 [1; 2; 0; 3]%nat _ _ _ _ S1 eq_refl) as E2. destruct (permute_1203 y1 _ _ _ _ S1) as (S2 & V2). set (y2 := permute _ y1) in *.
  destruct (view_infer_ok y2 [B] [(N * d)%nat] Q) as (y3 & E3 & S3 & V3); [cbn; nia|unfold numel; rewrite S2; cbn; ring|]. cbn [app] in *.
  exists y1, y2, y3. do 4 (split; [assumption|]). intros h b t c Hh Hb Ht Hc.
  rewrite (V3 [b; t; (h * d + c)%nat] [b; t; h; c]); [|rewrite S2; cbn; auto|rewrite S2; cbn; ring].
  rewrite V2. apply V1; rewrite Sx; cbn; [repeat split; nia|ring].
Qed.

(** The repeated mask, read as one mask per (batch * heads) slot: slot [s] gets the mask of sample [s / N]. *)
Lemma repeat_mask_ok N (m : tensor bool) B Q K : (1 <= N)%nat -> shape m = [B; Q; K] ->
  exists m', repeat_mask N m = Ok m' /\ numel m' = (B * N * Q * K)%nat /\
    forall s i j, (s < B * N)%nat -> (i < Q)%nat -> (j < K)%nat ->
      exists jx, valid (shape m') jx /\ ravel [(B * N)%nat; Q; K] [s; i; j] = ravel (shape m') jx /\ at_ m' jx = at_ m [(s / N)%nat; i; j].
Proof.
  intros HN S. unfold repeat_mask. rewrite S. eexists. split; [reflexivity|].
  assert (Sr : shape (repeat1 N (unsqueeze 1 m)) = [B; (N * 1)%nat; Q; K]) by (unfold repeat1, unsqueeze; cbn [shape]; rewrite S; reflexivity).
  split; [unfold numel; rewrite Sr; cbn; ring|]. intros s i j Hs Hi Hj. exists [(s / N)%nat; (s mod N)%nat; i; j]. rewrite Sr.
  assert (D : s = (s / N * N + s mod N)%nat) by (rewrite Nat.mul_comm; apply Nat.div_mod; lia).
  assert (Hm : (s mod N < N)%nat) by (apply Nat.mod_upper_bound; lia).
  assert (Hd : (s / N < B)%nat) by (apply Nat.div_lt_upper_bound; nia).
  split; [cbn; repeat split; auto; lia|]. split.
  - cbn [ravel prodn]. rewrite D at 1. ring.
  - unfold repeat1, unsqueeze. cbn [shape]. rewrite S. cbn [firstn skipn app at_]. reflexivity.
Qed.
