(** * Networks along lines: pieces, degrees, and what happens far away (C114). *)
From Coq Require Import String Reals ZArith List Lia Lra Psatz Bool Arith Classical.
From Verif Require Import Spec Tensor Utils LagrangePolynomial Basis PolynomialLayers ProductLayer LagrangeND Layers Networks Observe ObserveNet
  SumFacts TensorFacts LagrangeFacts LayerFacts SegmentFacts LayerProofs HeapFacts NetFacts NetCopy Prop_Init CompactFacts Prop_Bounds Prop_Approx Prop_Represent
  Prop_Universal Prop_Lipschitz.
Import ListNotations.
Local Open Scope R_scope.

(** ** Observations *)
(** Intervals of any kind, bounded or not. *)
Definition convex (U : R -> Prop) : Prop := forall x y z, U x -> U y -> x <= z <= y -> U z.
(** On every interval that contains none of the points [T], [f] is one polynomial of degree at most [d]. *)
Definition piecewise_poly (d : nat) (T : list R) (f : R -> R) : Prop :=
  forall U, convex U -> (forall t, In t T -> ~ U t) -> exists P, poly_lt (S d) P /\ forall x, U x -> f x = P x.
(** The point [p + t q] as a batch of one sample, and output [o] of the network there. *)
Definition on_line (d : nat) (p q : nat -> R) (t : R) : tensor R := mkT [1; d]%nat (fun ix => p (nth 1 ix 0%nat) + t * q (nth 1 ix 0%nat)).
Definition line_out (h : heap) (net d : nat) (p q : nat -> R) (o : nat) (t : R) : R :=
  match call h net (on_line d p q t) with Ok y => at_ y [0%nat; o] | Err _ => 0 end.
Fixpoint nprod (k : nat) (f : nat -> nat) : nat := match k with O => 1 | S k => (nprod k f * f k)%nat end.
(** The number of pieces is at most the product, over the layers, of 1 + inputs * (segments - 1) * degree of the inputs. *)
Definition most_pieces (n d K H si sh so : nat) : nat :=
  ((1 + d * (si - 1)) * nprod K (fun k => 1 + H * (sh - 1) * (n - 1) ^ S k) * (1 + H * (so - 1) * (n - 1) ^ S K))%nat.

(** ** Polynomials *)
Lemma poly_lt_mul_pow n f k : poly_lt n f -> poly_lt (k + n) (fun x => x ^ k * f x).
Proof.
  intros Hf. induction k as [|k IH]; [apply (poly_lt_ext _ f); auto; intros; cbn; ring|].
  apply (poly_lt_ext _ (fun x => x * (x ^ k * f x))); [intros; cbn; ring|]. cbn [Nat.add]. now apply poly_lt_mul_x.
Qed.
Lemma poly_lt_mult a b f g : poly_lt (S a) f -> poly_lt (S b) g -> poly_lt (S (a + b)) (fun x => f x * g x).
Proof.
  intros [c Hc] Hg. apply (poly_lt_ext _ (fun x => rsum (S a) (fun k => c k * (x ^ k * g x)))).
  - intros x. rewrite Hc, Rmult_comm, <- rsum_scal. apply rsum_ext. intros; ring.
  - apply (poly_lt_rsum _ (S a) (fun k x => c k * (x ^ k * g x))). intros k Hk. apply poly_lt_scal. apply (poly_lt_mono (k + S b)); [lia|]. now apply poly_lt_mul_pow.
Qed.
Lemma poly_lt_power b g k : poly_lt (S b) g -> poly_lt (S (k * b)) (fun x => g x ^ k).
Proof.
  intros Hg. induction k as [|k IH]; [cbn; apply poly_lt_const; lia|]. cbn [Nat.mul pow]. now apply poly_lt_mult.
Qed.
Lemma poly_lt_comp a b f g : poly_lt (S a) f -> poly_lt (S b) g -> poly_lt (S (a * b)) (fun x => f (g x)).
Proof.
  intros [c Hc] Hg. apply (poly_lt_ext _ (fun x => rsum (S a) (fun k => c k * g x ^ k))); [intros; now rewrite Hc|].
  apply (poly_lt_rsum _ (S a) (fun k x => c k * g x ^ k)). intros k Hk. apply poly_lt_scal. apply (poly_lt_mono (S (k * b))); [nia|]. now apply poly_lt_power.
Qed.
(** Finitely many roots, or the zero polynomial. *)
Lemma roots_or k (f : R -> R) : (exists X, distinct k X /\ forall i, (i < k)%nat -> f (X i) = 0) \/ (exists L, (length L < k)%nat /\ forall x, f x = 0 -> In x L).
Proof.
  induction k as [|k [(X & DX & RX)|(L & Ln & RL)]].
  - left. exists (fun _ => 0). split; [intros i j Hi; lia|intros i Hi; lia].
  - destruct (classic (exists x, f x = 0 /\ forall i, (i < k)%nat -> X i <> x)) as [(x & Fx & Nx)|N].
    + left. exists (fun i => if Nat.ltb i k then X i else x). split.
      * intros i j Hi Hj Ne. destruct (Nat.ltb_spec i k), (Nat.ltb_spec j k); [now apply DX|now apply Nx| |lia]. intros E. symmetry in E. revert E. now apply Nx.
      * intros i Hi. destruct (Nat.ltb_spec i k); auto.
    + right. exists (map X (seq 0 k)). split; [rewrite map_length, seq_length; lia|]. intros x Fx. apply NNPP. intros Nx. apply N. exists x. split; [exact Fx|].
      intros i Hi E. apply Nx. rewrite <- E. apply in_map, in_seq. lia.
  - right. exists L. split; [lia|auto].
Qed.
Lemma finite_roots d P : poly_lt (S d) P -> (forall x, P x = 0) \/ exists L, (length L <= d)%nat /\ forall x, P x = 0 -> In x L.
Proof.
  intros HP. destruct (roots_or (S d) P) as [(X & DX & RX)|(L & Ln & RL)].
  - left. now apply (poly_roots (S d) P X).
  - right. exists L. split; [lia|auto].
Qed.
(** A polynomial is constant or grows beyond all bounds. *)
Lemma poly_grows n : forall P, poly_lt n P -> (exists c, forall x, P x = c) \/ (forall M, exists X, forall x, X <= x -> M <= Rabs (P x)).
Proof.
  induction n as [|n IH]; intros P HP.
  - left. exists 0. destruct HP as [c Hc]. intros x. now rewrite Hc.
  - destruct (poly_factor n P 0 HP) as (Q & HQ & E). assert (EP : forall x, P x = P 0 + x * Q x) by (intros x; specialize (E x); lra).
    destruct (IH Q HQ) as [(c & Hc)|G].
    + destruct (Req_dec c 0) as [->|Nc].
      * left. exists (P 0). intros x. rewrite EP, Hc. ring.
      * right. intros M. exists ((Rabs M + Rabs (P 0)) / Rabs c + 1). intros x Hx. assert (Ac : 0 < Rabs c) by now apply Rabs_pos_lt.
        assert (X0 : 0 <= (Rabs M + Rabs (P 0)) / Rabs c) by (apply Rmult_le_pos; [pose proof (Rabs_pos M); pose proof (Rabs_pos (P 0)); lra|left; now apply Rinv_0_lt_compat]).
        assert (B : Rabs M + Rabs (P 0) <= Rabs (x * c)).
        { rewrite Rabs_mult, (Rabs_pos_eq x) by lra. replace (Rabs M + Rabs (P 0)) with ((Rabs M + Rabs (P 0)) / Rabs c * Rabs c) by (field; lra). apply Rmult_le_compat_r; lra. }
        rewrite EP, Hc. pose proof (Rabs_triang (P 0 + x * c) (- P 0)) as T. replace (P 0 + x * c + - P 0) with (x * c) in T by ring. rewrite Rabs_Ropp in T.
        pose proof (Rle_abs M). lra.
    + right. intros M. destruct (G (Rabs M + Rabs (P 0))) as (X & HX). exists (Rmax X 1). intros x Hx.
      pose proof (Rmax_l X 1). pose proof (Rmax_r X 1). specialize (HX x ltac:(lra)).
      assert (B : Rabs M + Rabs (P 0) <= Rabs (x * Q x)).
      { rewrite Rabs_mult, (Rabs_pos_eq x) by lra. pose proof (Rabs_pos (Q x)). nra. }
      rewrite EP. pose proof (Rabs_triang (P 0 + x * Q x) (- P 0)) as T. replace (P 0 + x * Q x + - P 0) with (x * Q x) in T by ring. rewrite Rabs_Ropp in T.
      pose proof (Rle_abs M). lra.
Qed.

(** ** Components of the complement of finitely many points *)
Definition below (T : list R) (x : R) : nat := length (filter (fun t => if Rlt_dec t x then true else false) T).
Lemma below_le T x : (below T x <= length T)%nat.
Proof. unfold below. induction T as [|t T IH]; cbn; [lia|]. destruct (Rlt_dec t x); cbn; lia. Qed.
Lemma below_mono T x y : x <= y -> (below T x <= below T y)%nat.
Proof. intros L. unfold below. induction T as [|t T IH]; cbn; [lia|]. destruct (Rlt_dec t x), (Rlt_dec t y); cbn; lia || lra. Qed.
Lemma below_strict T x y z : x <= z < y -> In z T -> (below T x < below T y)%nat.
Proof.
  intros L. unfold below. induction T as [|t T IH]; cbn; [tauto|]. intros [->|Hz].
  - pose proof (below_mono T x y ltac:(lra)) as M. unfold below in M. destruct (Rlt_dec z x), (Rlt_dec z y); cbn; lia || lra.
  - specialize (IH Hz). destruct (Rlt_dec t x), (Rlt_dec t y); cbn; lia || lra.
Qed.
Lemma below_const T U x y : convex U -> (forall t, In t T -> ~ U t) -> U x -> U y -> below T x = below T y.
Proof.
  assert (W : forall x y, x <= y -> convex U -> (forall t, In t T -> ~ U t) -> U x -> U y -> below T x = below T y).
  { clear x y. intros x y L C A Ux Uy. unfold below. f_equal. apply filter_ext_in. intros t Ht. destruct (Rlt_dec t x), (Rlt_dec t y); auto; try lra.
    exfalso. apply (A t Ht), (C x y); auto. lra. }
  intros C A Ux Uy. destruct (Rle_dec x y); [now apply W|]. symmetry. apply W; auto. lra.
Qed.
Definition component (T : list R) (j : nat) (x : R) : Prop := ~ In x T /\ below T x = j.
Lemma component_convex T j : convex (component T j).
Proof.
  intros x y z (Nx & Jx) (Ny & Jy) (L1 & L2). split.
  - intros Hz. destruct (Req_dec z y) as [->|Ne]; [auto|]. pose proof (below_strict T x y z ltac:(lra) Hz). lia.
  - pose proof (below_mono T x z L1). pose proof (below_mono T z y L2). lia.
Qed.

(** Points chosen for finitely many indices. *)
Lemma collect (N d : nat) (Q : nat -> list R -> Prop) : (forall k L L', Q k L -> incl L L' -> Q k L') ->
  (forall k, (k < N)%nat -> exists L, (length L <= d)%nat /\ Q k L) -> exists L, (length L <= N * d)%nat /\ forall k, (k < N)%nat -> Q k L.
Proof.
  intros Up H. induction N as [|N IH].
  - exists []. split; [cbn; lia|]. intros; lia.
  - destruct IH as (L & Ln & QL); [intros; apply H; lia|]. destruct (H N ltac:(lia)) as (L' & Ln' & QL').
    exists (L ++ L'). split; [rewrite app_length; cbn; lia|]. intros k Hk. destruct (Nat.eq_dec k N) as [->|Ne].
    + apply (Up N L'); auto. apply incl_appr, incl_refl.
    + apply (Up k L); [apply QL; lia|]. apply incl_appl, incl_refl.
Qed.

(** Where a polynomial does not meet a value it stays on one side of it. *)
Lemma one_side (P : R -> R) U k x y : continuity P -> convex U -> U x -> U y -> (forall z, U z -> P z <> k) -> k <= P x -> k <= P y.
Proof.
  intros CP CU Ux Uy N L. destruct (Rle_dec k (P y)) as [|B]; [assumption|exfalso].
  assert (C : continuity (fun z => P z - k)) by (apply continuity_minus; [exact CP|apply continuity_const; intros ? ?; reflexivity]).
  destruct (Rle_dec x y) as [O|O].
  - destruct (IVT_cor (fun z => P z - k) x y C O) as (z & Hz & Ez); [nra|]. apply (N z); [now apply (CU x y)|lra].
  - destruct (IVT_cor (fun z => P z - k) y x C ltac:(lra)) as (z & Hz & Ez); [nra|]. apply (N z); [now apply (CU y x)|lra].
Qed.

(** ** One layer *)
Lemma layer_pieces l d T (v : R -> nat -> R) : held l -> pw_length l = 2 -> pw_periodicity l = None -> sum_class (pw_cls l) ->
  (forall i, (i < pw_in l)%nat -> piecewise_poly d T (fun t => v t i)) ->
  exists T', (length T' + 1 <= (length T + 1) * (1 + pw_in l * (pw_segments l - 1) * d))%nat /\
    forall o, (o < pw_out l)%nat -> piecewise_poly ((pw_n l - 1) * d) T' (fun t => layer_out l (v t) o).
Proof.
  intros Hl HL Hp Hc Hv. pose proof (held_wf l Hl) as (N1 & S1 & _). set (Sg := pw_segments l) in *.
  (* where an input crosses an interior knot *)
  set (Q := fun j i s L => (forall x, component T j x -> v x i = knot Sg (S s) -> In x L) \/ (forall x, component T j x -> v x i = knot Sg (S s))).
  assert (Up : forall j i s L L', Q j i s L -> incl L L' -> Q j i s L').
  { intros j i s L L' [HQ|HQ] I; [left|right]; auto. }
  assert (Cr : exists L, (length L <= (length T + 1) * (pw_in l * ((Sg - 1) * d)))%nat /\
     forall j, (j < length T + 1)%nat -> forall i, (i < pw_in l)%nat -> forall s, (s < Sg - 1)%nat -> Q j i s L).
  { apply (collect _ _ (fun j L => forall i, (i < pw_in l)%nat -> forall s, (s < Sg - 1)%nat -> Q j i s L)).
    { intros k L L' HQ I i Hi s Hs. apply (Up _ _ _ L); auto. }
    intros j Hj. apply (collect _ _ (fun i L => forall s, (s < Sg - 1)%nat -> Q j i s L)).
    { intros k L L' HQ I s Hs. apply (Up _ _ _ L); auto. }
    intros i Hi. apply (collect _ _ (fun s L => Q j i s L)).
    { intros k L L' HQ I. apply (Up _ _ _ L); auto. }
    intros s Hs. destruct (Hv i Hi (component T j) (component_convex T j)) as (P & HP & EP); [intros t Ht (N & _); auto|].
    destruct (finite_roots d (fun x => P x - knot Sg (S s))) as [Z|(L & Ln & RL)].
    - apply poly_lt_minus; [exact HP|apply poly_lt_const; lia].
    - exists []. split; [cbn; lia|]. right. intros x Hx. rewrite EP by assumption. specialize (Z x). cbn beta in Z. lra.
    - exists L. split; [exact Ln|]. left. intros x Hx E. apply RL. rewrite <- EP by assumption. rewrite E. ring. }
  destruct Cr as (L & Ln & HQ). exists (T ++ L). split.
  { rewrite app_length. nia. }
  intros o Ho U CU AU. destruct (classic (exists x0, U x0)) as [(x0 & U0)|NE].
  2:{ exists (fun _ => 0). split; [apply poly_lt_zero|]. intros x Ux. exfalso. apply NE. eauto. }
  assert (AT : forall t, In t T -> ~ U t) by (intros t Ht; apply AU, in_or_app; now left).
  assert (UC : forall x, U x -> component T (below T x0) x).
  { intros x Ux. split; [intros Hx; now apply (AT x)|]. now apply (below_const T U). }
  assert (Pc : forall i, (i < pw_in l)%nat -> exists P, poly_lt (S ((pw_n l - 1) * d)) P /\ forall x, U x -> link l o i (v x i) = P x).
  { intros i Hi. destruct (Hv i Hi U CU AT) as (P & HP & EP). set (s := seg l (v x0 i)).
    assert (CP : continuity P) by now apply (poly_lt_continuous (S d)).
    assert (Side : forall r x, (r < Sg - 1)%nat -> U x -> (knot Sg (S r) <= v x0 i <-> knot Sg (S r) <= v x i)).
    { intros r x Hr Ux. destruct (HQ (below T x0) ltac:(pose proof (below_le T x0); lia) i Hi r Hr) as [C|C].
      - assert (N : forall z, U z -> P z <> knot Sg (S r)).
        { intros z Uz E. apply (AU z); [|exact Uz]. apply in_or_app. right. apply C; [now apply UC|]. rewrite EP; auto. }
        rewrite !EP by assumption. split; apply (one_side P U); auto.
      - rewrite !C by (now apply UC). tauto. }
    assert (Sc : forall x, U x -> seg l (v x i) = s).
    { intros x Ux. assert (Hs : (s < Sg)%nat) by now apply seg_lt. apply (seg_spec l (v x i) s HL S1 Hs). fold Sg.
      destruct (seg_in l (v x0 i) HL S1) as (_ & A & B). fold s in A, B. fold Sg in A, B. split; [exact Hs|]. split.
      - destruct A as [A|A]; [now left|]. destruct s as [|r] eqn:Es; [now left|]. right. apply (Side r x); auto; lia.
      - destruct B as [B|B]; [now left|]. destruct (Nat.eq_dec Sg (S s)) as [E|Ne]; [now left|]. right.
        apply Rnot_le_lt. intros C. apply (Side s x) in C; [lra|lia|assumption]. }
    exists (fun x => piece l o i s (P x)). split.
    - apply poly_lt_comp; [|exact HP]. replace (S (pw_n l - 1)) with (pw_n l) by lia. now apply piece_poly.
    - intros x Ux. unfold link. rewrite Hp. cbn [apply_periodicity]. unfold link0. rewrite (Sc x Ux). f_equal. now apply EP. }
  assert (Pf : exists F : nat -> R -> R, forall i, (i < pw_in l)%nat -> poly_lt (S ((pw_n l - 1) * d)) (F i) /\ forall x, U x -> link l o i (v x i) = F i x).
  { clear - Pc. induction (pw_in l) as [|k IH]; [exists (fun _ _ => 0); intros; lia|].
    destruct IH as (F & HF); [intros; apply Pc; lia|]. destruct (Pc k ltac:(lia)) as (P & HP).
    exists (fun i => if Nat.eqb i k then P else F i). intros i Hi. destruct (Nat.eqb_spec i k) as [->|Ne]; [exact HP|apply HF; lia]. }
  destruct Pf as (F & HF). exists (fun x => rsum (pw_in l) (fun i => F i x)). split.
  - apply poly_lt_rsum. intros i Hi. now apply HF.
  - intros x Ux. rewrite layer_out_eq by assumption. rewrite alpha_sum by assumption. cbn [combine_links]. apply rsum_ext. intros i Hi. now apply HF.
Qed.

(** ** Layers in sequence *)
Fixpoint degree (D : nat) (cs : list cfg) : nat := match cs with [] => D | c :: cs => degree ((c_n c - 1) * D)%nat cs end.
Fixpoint pieces (D : nat) (cs : list cfg) : nat :=
  match cs with [] => 1 | c :: cs => ((1 + c_in c * (c_seg c - 1) * D) * pieces ((c_n c - 1) * D) cs)%nat end.
Definition simple (c : cfg) : Prop := c_len c = 2 /\ c_per c = None /\ sum_class (c_cls c).

Lemma through_pieces ls W W' : chain W ls W' -> Forall simple (map cfg_of ls) -> forall D T (v : R -> nat -> R),
  (forall i, (i < W)%nat -> piecewise_poly D T (fun t => v t i)) ->
  exists T', (length T' + 1 <= (length T + 1) * pieces D (map cfg_of ls))%nat /\
    forall o, (o < W')%nat -> piecewise_poly (degree D (map cfg_of ls)) T' (fun t => through ls (v t) o).
Proof.
  intros C. induction C as [W|l ls W' Hl C IH]; intros Sm D T v Hv; cbn [map degree pieces through].
  - exists T. split; [lia|exact Hv].
  - cbn [map] in Sm. pose proof (Forall_inv Sm) as (E1 & E2 & E3). apply Forall_inv_tail in Sm.
    destruct (layer_pieces l D T v Hl E1 E2 E3 Hv) as (T1 & L1 & P1).
    destruct (IH Sm ((pw_n l - 1) * D)%nat T1 (fun t => layer_out l (v t)) P1) as (T2 & L2 & P2).
    exists T2. split; [|exact P2]. cbn [cfg_of c_in c_seg c_n]. nia.
Qed.

Lemma nprod_ext k f g : (forall i, (i < k)%nat -> f i = g i) -> nprod k f = nprod k g.
Proof. induction k as [|k IH]; intros H; cbn; auto. rewrite IH by (intros; apply H; lia). rewrite H by lia. reflexivity. Qed.
Lemma nprod_S_l k f : nprod (S k) f = (f 0 * nprod k (fun i => f (S i)))%nat.
Proof. induction k as [|k IH]; cbn in *; [lia|]. rewrite IH. lia. Qed.
Lemma hidden_degree c n H m sh so K D :
  degree D (repeat (pw_slot c n H H sh None) K ++ [pw_slot c n H m so None]) = ((n - 1) ^ S K * D)%nat /\
  pieces D (repeat (pw_slot c n H H sh None) K ++ [pw_slot c n H m so None])
  = (nprod K (fun k => 1 + H * (sh - 1) * ((n - 1) ^ k * D)) * (1 + H * (so - 1) * ((n - 1) ^ K * D)))%nat.
Proof.
  revert D. induction K as [|K IH]; intros D; cbn [repeat app degree pieces].
  - cbn [pw_slot c_n c_in c_seg degree pieces nprod Nat.pow]. split; ring.
  - destruct (IH ((n - 1) * D)%nat) as (E1 & E2). cbn [pw_slot c_n c_in c_seg]. rewrite E1, E2. split; [cbn [Nat.pow]; ring|].
    rewrite nprod_S_l. cbn [Nat.pow].
    rewrite (nprod_ext K (fun k => (1 + H * (sh - 1) * ((n - 1) ^ k * ((n - 1) * D)))%nat) (fun k => (1 + H * (sh - 1) * ((n - 1) * (n - 1) ^ k * D))%nat)) by (intros; ring).
    ring.
Qed.
Lemma mlp_degree c n d m K H si sh so : degree 1 (mlp_configs c n d m K H si sh so) = ((n - 1) ^ (K + 2))%nat.
Proof.
  unfold mlp_configs. cbn [degree]. cbn [pw_slot c_n]. destruct (hidden_degree c n H m sh so K ((n - 1) * 1)) as (-> & _).
  replace (K + 2)%nat with (S (S K)) by lia. cbn [Nat.pow]. ring.
Qed.
Lemma mlp_pieces c n d m K H si sh so : pieces 1 (mlp_configs c n d m K H si sh so) = most_pieces n d K H si sh so.
Proof.
  unfold mlp_configs, most_pieces. cbn [pieces]. cbn [pw_slot c_n c_in c_seg]. destruct (hidden_degree c n H m sh so K ((n - 1) * 1)) as (_ & ->).
  rewrite (nprod_ext K _ (fun k => (1 + H * (sh - 1) * (n - 1) ^ S k)%nat)) by (intros; cbn [Nat.pow]; ring). cbn [Nat.pow]. ring.
Qed.

(** ** Networks *)
Definition layer_type (t : string) : Prop := t = "continuous"%string \/ t = "discontinuous"%string.

Lemma affine_pieces p q : piecewise_poly 1 [] (fun t => p + t * q).
Proof.
  intros U CU AU. exists (fun t => p + t * q). split; [|reflexivity].
  exists (fun k => match k with O => p | _ => q end). intros x. cbn. ring.
Qed.

(** Along every line a network is piecewise polynomial, with at most [most_pieces] pieces of degree at most (n-1)^(number of layers). *)
Theorem C114_pieces : forall g t n d m K H si sh so h0 net h1 h p q,
  wf_heap h0 -> layer_type t -> (1 <= n)%nat -> (1 <= d)%nat -> (1 <= m)%nat -> (1 <= H)%nat -> (1 <= si)%nat -> (1 <= sh)%nat -> (1 <= so)%nat ->
  HighOrderMLP g (layers_only t n d m K H si sh so) h0 = Ok (net, h1) -> retrained h1 h ->
  (forall s, exists y, call h net (on_line d p q s) = Ok y /\ shape y = [1%nat; m]) /\
  exists T, (length T + 1 <= most_pieces n d K H si sh so)%nat /\
    forall o, (o < m)%nat -> piecewise_poly ((n - 1) ^ (K + 2)) T (line_out h net d p q o).
Proof.
  intros g t n d m K H si sh so h0 net h1 h p q Wf Ht Hn Hd Hm HH Hsi Hsh Hso E Rh.
  assert (Tc : exists c, sum_class c /\ (t = "continuous"%string /\ c = PiecewisePolynomial \/ t = "discontinuous"%string /\ c = PiecewiseDiscontinuousPolynomial)).
  { destruct Ht as [->| ->]; [exists PiecewisePolynomial|exists PiecewiseDiscontinuousPolynomial]; (split; [|tauto]); [now left|now right]. }
  destruct Tc as (c & Sc & Tc).
  destruct (mlp_sequence g t c n d m K H si sh so h0 net h1 Wf Tc Hn Hd Hm HH Hsi Hsh Hso E) as (L & _ & P).
  destruct (P h Rh) as (_ & ls & F & Hh & Cf & Ch & R).
  assert (Rt : forall s, exists y, call h net (on_line d p q s) = Ok y /\ shape y = [1%nat; m] /\
    forall o, (o < m)%nat -> at_ y [0%nat; o] = through ls (fun i => p i + s * q i) o).
  { intros s. destruct (R (on_line d p q s) 1%nat eq_refl) as (y & Ey & Sy & Hy). exists y. split; [exact Ey|]. split; [exact Sy|].
    intros o Ho. rewrite Hy by lia. reflexivity. }
  split.
  { intros s. destruct (Rt s) as (y & Ey & Sy & _). eauto. }
  assert (Sm : Forall simple (map cfg_of ls)).
  { rewrite Cf. assert (A : forall I O s, simple (pw_slot c n I O s None)) by (intros; split; [reflexivity|split; [reflexivity|exact Sc]]).
    unfold mlp_configs. constructor; [apply A|]. apply Forall_app. split; [|constructor; [apply A|constructor]].
    apply Forall_forall. intros x Hx. apply repeat_spec in Hx. subst x. apply A. }
  destruct (through_pieces ls d m Ch Sm 1 [] (fun s i => p i + s * q i)) as (T & LT & PT).
  { intros i Hi. apply affine_pieces. }
  rewrite Cf, mlp_pieces in LT. rewrite Cf, mlp_degree in PT. exists T. split; [cbn [length] in LT; lia|].
  intros o Ho U CU AU. destruct (PT o Ho U CU AU) as (Q & HQ & EQ). exists Q. split; [exact HQ|]. intros x Ux. rewrite <- EQ by assumption.
  unfold line_out. destruct (Rt x) as (y & Ey & _ & Hy). rewrite Ey. now apply Hy.
Qed.
Print Assumptions C114_pieces.

(** With two nodes: piecewise linear; with one node: piecewise constant. *)
Theorem C114_linear : forall g t d m K H si sh so h0 net h1 h p q,
  wf_heap h0 -> layer_type t -> (1 <= d)%nat -> (1 <= m)%nat -> (1 <= H)%nat -> (1 <= si)%nat -> (1 <= sh)%nat -> (1 <= so)%nat ->
  HighOrderMLP g (layers_only t 2 d m K H si sh so) h0 = Ok (net, h1) -> retrained h1 h ->
  exists T, (length T + 1 <= (1 + d * (si - 1)) * (1 + H * (sh - 1)) ^ K * (1 + H * (so - 1)))%nat /\
    forall o, (o < m)%nat -> piecewise_poly 1 T (line_out h net d p q o).
Proof.
  intros g t d m K H si sh so h0 net h1 h p q Wf Ht Hd Hm HH Hsi Hsh Hso E Rh.
  destruct (C114_pieces g t 2 d m K H si sh so h0 net h1 h p q Wf Ht ltac:(lia) Hd Hm HH Hsi Hsh Hso E Rh) as (_ & T & LT & PT).
  exists T. split.
  - eapply Nat.le_trans; [exact LT|]. unfold most_pieces. change (2 - 1)%nat with 1%nat.
    assert (Np : nprod K (fun k => (1 + H * (sh - 1) * 1 ^ S k)%nat) = ((1 + H * (sh - 1)) ^ K)%nat).
    { clear. induction K as [|K IH]; [reflexivity|]. cbn [nprod]. rewrite IH, Nat.pow_1_l, Nat.mul_1_r. cbn [Nat.pow]. ring. }
    rewrite Np, Nat.pow_1_l, Nat.mul_1_r. lia.
  - intros o Ho. specialize (PT o Ho). change (2 - 1)%nat with 1%nat in PT. now rewrite Nat.pow_1_l in PT.
Qed.
Print Assumptions C114_linear.
Theorem C114_constant : forall g t d m K H si sh so h0 net h1 h p q,
  wf_heap h0 -> layer_type t -> (1 <= d)%nat -> (1 <= m)%nat -> (1 <= H)%nat -> (1 <= si)%nat -> (1 <= sh)%nat -> (1 <= so)%nat ->
  HighOrderMLP g (layers_only t 1 d m K H si sh so) h0 = Ok (net, h1) -> retrained h1 h ->
  exists T, (length T <= d * (si - 1))%nat /\
    forall o, (o < m)%nat -> piecewise_poly 0 T (line_out h net d p q o).
Proof.
  intros g t d m K H si sh so h0 net h1 h p q Wf Ht Hd Hm HH Hsi Hsh Hso E Rh.
  destruct (C114_pieces g t 1 d m K H si sh so h0 net h1 h p q Wf Ht ltac:(lia) Hd Hm HH Hsi Hsh Hso E Rh) as (_ & T & LT & PT).
  exists T. split.
  - unfold most_pieces in LT. change (1 - 1)%nat with 0%nat in LT.
    assert (Np : nprod K (fun k => (1 + H * (sh - 1) * 0 ^ S k)%nat) = 1%nat).
    { clear. induction K as [|K IH]; [reflexivity|]. cbn [nprod]. rewrite IH. cbn [Nat.pow]. lia. }
    rewrite Np in LT. cbn [Nat.pow] in LT. rewrite Nat.mul_0_l, Nat.mul_0_r in LT. lia.
  - intros o Ho. specialize (PT o Ho). change (1 - 1)%nat with 0%nat in PT. replace (K + 2)%nat with (S (S K)) in PT by lia. cbn [Nat.pow Nat.mul] in PT. exact PT.
Qed.
Print Assumptions C114_constant.

(** ** Far away *)
Lemma beyond T : exists X, forall t, In t T -> t <= X.
Proof.
  induction T as [|t T (X & HX)]; [exists 0; intros ? []|]. exists (Rmax t X). pose proof (Rmax_l t X). pose proof (Rmax_r t X).
  intros s [<-|Hs]; [assumption|]. specialize (HX s Hs). lra.
Qed.
Lemma eventually_poly d T f : piecewise_poly d T f -> exists P X, poly_lt (S d) P /\ forall x, X < x -> f x = P x.
Proof.
  intros PT. destruct (beyond T) as (X & HX). destruct (PT (fun x => X < x)) as (P & HP & EP).
  - intros x y z Hx Hy Hz. lra.
  - intros t Ht. specialize (HX t Ht). lra.
  - exists P, X. auto.
Qed.

(** Along every ray each output is a constant from some point on or grows beyond all bounds. *)
Theorem C114_far_away : forall g t n d m K H si sh so h0 net h1 h p q o,
  wf_heap h0 -> layer_type t -> (1 <= n)%nat -> (1 <= d)%nat -> (1 <= m)%nat -> (1 <= H)%nat -> (1 <= si)%nat -> (1 <= sh)%nat -> (1 <= so)%nat ->
  HighOrderMLP g (layers_only t n d m K H si sh so) h0 = Ok (net, h1) -> retrained h1 h -> (o < m)%nat ->
  (exists c X, forall s, X <= s -> line_out h net d p q o s = c) \/
  (forall M, exists X, forall s, X <= s -> M <= Rabs (line_out h net d p q o s)).
Proof.
  intros g t n d m K H si sh so h0 net h1 h p q o Wf Ht Hn Hd Hm HH Hsi Hsh Hso E Rh Ho.
  destruct (C114_pieces g t n d m K H si sh so h0 net h1 h p q Wf Ht Hn Hd Hm HH Hsi Hsh Hso E Rh) as (_ & T & _ & PT).
  destruct (eventually_poly _ T _ (PT o Ho)) as (P & X & HP & EP). destruct (poly_grows _ P HP) as [(c & Hc)|G].
  - left. exists c, (X + 1). intros s Hs. rewrite EP by lra. apply Hc.
  - right. intros M. destruct (G M) as (Y & HY). exists (Rmax (X + 1) Y). intros s Hs. pose proof (Rmax_l (X + 1) Y). pose proof (Rmax_r (X + 1) Y).
    rewrite EP by lra. apply HY. lra.
Qed.
Print Assumptions C114_far_away.

(** So no network is close to the sine on the whole line, though networks come close to it on every bounded interval (C88). *)
Theorem C114_no_sine : forall g t n K H si sh so h0 net h1 h e,
  wf_heap h0 -> layer_type t -> (1 <= n)%nat -> (1 <= H)%nat -> (1 <= si)%nat -> (1 <= sh)%nat -> (1 <= so)%nat ->
  HighOrderMLP g (layers_only t n 1 1 K H si sh so) h0 = Ok (net, h1) -> retrained h1 h -> e < 1 ->
  ~ forall s, Rabs (line_out h net 1 (fun _ => 0) (fun _ => 1) 0 s - sin s) <= e.
Proof.
  intros g t n K H si sh so h0 net h1 h e Wf Ht Hn HH Hsi Hsh Hso E Rh He C. set (f := line_out h net 1 (fun _ => 0) (fun _ => 1) 0) in *.
  assert (B : forall s, Rabs (f s) <= e + 1).
  { intros s. specialize (C s). pose proof (SIN_bound s) as (S1 & S2). pose proof (Rabs_def2_le := Rabs_le). apply Rabs_le. 
    assert (- e <= f s - sin s <= e) by (split; [|eapply Rle_trans; [apply Rle_abs|exact C]]; pose proof (Rle_abs (- (f s - sin s))) as Q; rewrite Rabs_Ropp in Q; lra). lra. }
  destruct (C114_far_away g t n 1 1 K H si sh so h0 net h1 h (fun _ => 0) (fun _ => 1) 0 Wf Ht Hn ltac:(lia) ltac:(lia) HH Hsi Hsh Hso E Rh ltac:(lia)) as [(c & X & HX)|G].
  - fold f in HX. destruct (archimed (Rmax X 0)) as (A & _). set (k := Z.to_nat (up (Rmax X 0))).
    assert (Hk : Rmax X 0 <= INR k).
    { unfold k. pose proof (Rmax_r X 0). rewrite INR_IZR_INZ, Z2Nat.id; [lra|]. apply le_IZR. lra. }
    pose proof (Rmax_l X 0). pose proof (pos_INR k). pose proof PI_RGT_0 as P0. assert (P3 : 1 <= PI) by (pose proof PI2_3_2; lra).
    assert (S1 : sin (PI / 2 + 2 * INR k * PI) = 1) by (rewrite sin_period; apply sin_PI2).
    assert (S2 : sin (3 * (PI / 2) + 2 * INR k * PI) = -1) by (rewrite sin_period; replace (3 * (PI / 2)) with (PI / 2 + PI) by field; rewrite neg_sin, sin_PI2; ring).
    pose proof (C (PI / 2 + 2 * INR k * PI)) as C1. pose proof (C (3 * (PI / 2) + 2 * INR k * PI)) as C2.
    rewrite S1, HX in C1 by nra. rewrite S2, HX in C2 by nra.
    pose proof (Rle_abs (c - -1)). pose proof (Rle_abs (- (c - 1))) as Q. rewrite Rabs_Ropp in Q. lra.
  - destruct (G (e + 2)) as (X & HX). specialize (HX X ltac:(lra)). fold f in HX. specialize (B X). lra.
Qed.
Print Assumptions C114_no_sine.

(** ** The degree is attained *)
Lemma power_degree D D' P X : poly_lt (S D') P -> (forall x, X < x -> x ^ D = P x) -> (D <= D')%nat.
Proof.
  intros [c Hc] E. apply Nat.nlt_ge. intros Lt. destruct D as [|D]; [lia|].
  set (C := rsum (S D') (fun k => Rabs (c k))). set (x := Rmax X (Rmax C 1) + 1).
  pose proof (Rmax_l X (Rmax C 1)). pose proof (Rmax_r X (Rmax C 1)). pose proof (Rmax_l C 1). pose proof (Rmax_r C 1).
  assert (Hx : X < x /\ C < x /\ 1 <= x) by (unfold x; lra). destruct Hx as (X1 & X2 & X3).
  specialize (E x X1). rewrite Hc in E. assert (Px : 0 < x ^ D) by (apply pow_lt; lra).
  assert (B : rsum (S D') (fun k => c k * x ^ k) <= C * x ^ D).
  { unfold C. rewrite Rmult_comm, <- rsum_scal. apply rsum_le. intros k Hk. rewrite (Rmult_comm (x ^ D)). apply Rle_trans with (Rabs (c k) * x ^ k).
    - apply Rmult_le_compat_r; [apply pow_le; lra|apply Rle_abs].
    - apply Rmult_le_compat_l; [apply Rabs_pos|]. apply Rle_pow; [lra|lia]. }
  cbn [pow] in E. nra.
Qed.

Lemma power_layer c n I O : sum_class c -> (1 <= n)%nat -> (1 <= I)%nat -> (1 <= O)%nat ->
  exists l, held l /\ cfg_of l = pw_slot c n I O 1 None /\ forall v o, (o < O)%nat -> layer_out l v o = v 0%nat ^ (n - 1).
Proof.
  intros Hc Hn HI HO. set (l0 := new_piecewise c n I O 1 2 1 None (fun _ _ => 0)).
  set (w := mkT (shape (pw_w l0)) (fun ix => if Nat.eqb (nth 1 ix 0%nat) 0 then lobatto n (nth 2 ix 0%nat) ^ (n - 1) else 0)).
  assert (Hl : held (with_w l0 w)) by (apply with_w_held; [apply new_held; lia|reflexivity]). exists (with_w l0 w). split; [exact Hl|]. split; [reflexivity|].
  intros v o Ho. rewrite layer_out_sum by (auto; exact Ho). change (pw_in (with_w l0 w)) with I.
  assert (In1 : forall x, in_segment 1 0 x) by (intros x; split; [lia|split; now left]).
  assert (Lk : forall i, link (with_w l0 w) o i (v i) = if Nat.eqb i 0 then v i ^ (n - 1) else 0).
  { intros i. change (link (with_w l0 w) o i (v i)) with (link0 (with_w l0 w) o i (v i)).
    rewrite (link0_spec (with_w l0 w) o i 0 (v i) (fun x => if Nat.eqb i 0 then x ^ (n - 1) else 0)); auto.
    - change (pw_segments (with_w l0 w)) with 1%nat. destruct (Nat.eqb i 0); [|reflexivity]. f_equal. unfold seg_local, knot. cbn. field.
    - change (pw_n (with_w l0 w)) with n. change (pw_cls (with_w l0 w)) with c. split.
      + destruct (Nat.eqb i 0); [|apply poly_lt_const; lia]. apply (poly_lt_mono (S (n - 1))); [lia|]. apply poly_lt_pow.
      + intros k Hk. cbn [with_w pw_w w at_ nth]. destruct (Nat.eqb i 0); [|reflexivity]. apply (f_equal (fun p => lobatto n p ^ (n - 1))). unfold weight_pos. destruct Hc as [->| ->]; reflexivity. }
  rewrite (rsum_ext _ _ _ (fun i _ => Lk i)). destruct I as [|I]; [lia|]. rewrite rsum_S_l. cbn [Nat.eqb]. rewrite rsum_zero by (intros; reflexivity). ring.
Qed.

(** The degree is attained: for every number of nodes, widths and depth there are weights with which every output along the first coordinate axis is
    t^((n-1)^(K+2)), and this function has no description by pieces of smaller degree. *)
Theorem C114_degree_attained : forall g t n d m K H h0,
  wf_heap h0 -> layer_type t -> (1 <= n)%nat -> (1 <= d)%nat -> (1 <= m)%nat -> (1 <= H)%nat ->
  exists net h1 h, HighOrderMLP g (layers_only t n d m K H 1 1 1) h0 = Ok (net, h1) /\ retrained h1 h /\
    forall o, (o < m)%nat ->
      (forall s, line_out h net d (fun _ => 0) (fun i => if Nat.eqb i 0 then 1 else 0) o s = s ^ ((n - 1) ^ (K + 2))) /\
      forall D T, piecewise_poly D T (line_out h net d (fun _ => 0) (fun i => if Nat.eqb i 0 then 1 else 0) o) -> ((n - 1) ^ (K + 2) <= D)%nat.
Proof.
  intros g t n d m K H h0 Wf Ht Hn Hd Hm HH.
  assert (Tc : exists c, sum_class c /\ (t = "continuous"%string /\ c = PiecewisePolynomial \/ t = "discontinuous"%string /\ c = PiecewiseDiscontinuousPolynomial)).
  { destruct Ht as [->| ->]; [exists PiecewisePolynomial|exists PiecewiseDiscontinuousPolynomial]; (split; [|tauto]); [now left|now right]. }
  destruct Tc as (c & Sc & Tc).
  destruct (power_layer c n d H Sc Hn Hd HH) as (l1 & H1 & C1 & P1). destruct (power_layer c n H H Sc Hn HH HH) as (lh & Hh & Ch & Ph).
  destruct (power_layer c n H m Sc Hn HH Hm) as (l2 & H2 & C2 & P2).
  destruct (load_mlp g t n d m K H 1 1 1 h0 l1 (repeat lh K) l2 c Wf Tc H1 C1 (repeat_length _ _)) as (net & h1 & h & E & Rt & P); auto.
  { apply Forall_forall. intros l Hl. apply repeat_spec in Hl. subst l. auto. }
  exists net, h1, h. split; [exact E|]. split; [exact Rt|]. intros o Ho.
  assert (V : forall s, line_out h net d (fun _ => 0) (fun i => if Nat.eqb i 0 then 1 else 0) o s = s ^ ((n - 1) ^ (K + 2))).
  { intros s. unfold line_out. destruct (P (on_line d (fun _ => 0) (fun i => if Nat.eqb i 0 then 1 else 0) s) 1%nat eq_refl) as (y & -> & _ & Hy). rewrite Hy by lia.
    cbn [through]. rewrite through_app. cbn [through]. rewrite P2 by exact Ho.
    assert (Hk : forall k u c, u 0%nat = c -> through (repeat lh k) u 0%nat = c ^ ((n - 1) ^ k)).
    { clear - Ph HH. induction k as [|k IH]; intros u c Hu; cbn [repeat through]; [rewrite Hu; cbn; ring|].
      rewrite (IH _ (c ^ (n - 1))) by (rewrite Ph by lia; now rewrite Hu). rewrite <- pow_mult. reflexivity. }
    rewrite (Hk K _ (s ^ (n - 1))).
    - rewrite <- !pow_mult. f_equal. replace (K + 2)%nat with (S (S K)) by lia. cbn [Nat.pow]. lia.
    - rewrite P1 by lia. f_equal. unfold row. cbn. ring. }
  split; [exact V|]. intros D T PT. destruct (eventually_poly D T _ PT) as (Q & X & HQ & EQ). apply (power_degree _ _ Q X HQ). intros x Hx. rewrite <- V. now apply EQ.
Qed.
Print Assumptions C114_degree_attained.

Example C114_case : exists net h1, HighOrderMLP (fun _ _ => 0) (layers_only "continuous" 3 2 1 1 2 4 4 4) [] = Ok (net, h1) /\
  most_pieces 3 2 1 2 4 4 4 = (7 * 13 * 25)%nat /\
  exists T, (length T + 1 <= 2275)%nat /\ piecewise_poly 8 T (line_out h1 net 2 (fun _ => 1) (fun i => INR i) 0).
Proof.
  assert (Pl : plain_mlp (layers_only "continuous" 3 2 1 1 2 4 4 4) 3 3 3 4 4 4) by (apply layers_only_plain; try lia; now left).
  destruct (mlp_spec (fun _ _ => 0) _ 3 3 3 4 4 4 [] 0%nat Pl wf_nil ltac:(intros k Ek; discriminate)) as (net & e & dl & k1 & k2 & q & L & E & _).
  exists net, ([] ++ e). split; [exact E|]. split; [reflexivity|].
  destruct (C114_pieces (fun _ _ => 0) "continuous" 3 2 1 1 2 4 4 4 [] net ([] ++ e) ([] ++ e) (fun _ => 1) (fun i => INR i)) as (_ & T & LT & PT);
    try lia; try exact E; [apply wf_nil|now left|apply NetCopy.retrained_refl|].
  exists T. split; [exact LT|]. apply PT. lia.
Qed.
