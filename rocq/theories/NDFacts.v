(** * N-dimensional sums and the N-dimensional Lagrange basis. *)
From Coq Require Import Reals ZArith List Lia Lra Bool.
From Verif Require Import Spec Tensor Utils LagrangePolynomial Basis PolynomialLayers LagrangeND Observe
  SumFacts TensorFacts LagrangeFacts LayerFacts SegmentFacts LayerProofs.
Import ListNotations.
Local Open Scope R_scope.

Lemma nsum_ext n : forall f g, (forall ix, valid n ix -> f ix = g ix) -> nsum n f = nsum n g.
Proof.
  induction n as [|d n IH]; intros f g E; cbn [nsum]; [apply E; exact I|].
  apply rsum_ext. intros i Hi. apply IH. intros ix Hix. apply E. now split.
Qed.
Lemma nsum_scal n a : forall f, nsum n (fun ix => a * f ix) = a * nsum n f.
Proof.
  induction n as [|d n IH]; intros f; cbn [nsum]; [reflexivity|].
  rewrite <- rsum_scal. apply rsum_ext. intros; apply IH.
Qed.
Lemma nsum_rsum n m : forall f, nsum n (fun ix => rsum m (fun k => f ix k)) = rsum m (fun k => nsum n (fun ix => f ix k)).
Proof.
  induction n as [|d n IH]; intros f; cbn [nsum]; [reflexivity|].
  rewrite rsum_swap. apply rsum_ext. intros; apply IH.
Qed.
Lemma nsum_swap n m : forall f, nsum n (fun ix => nsum m (fun jx => f ix jx)) = nsum m (fun jx => nsum n (fun ix => f ix jx)).
Proof.
  induction n as [|d n IH]; intros f; cbn [nsum]; [reflexivity|].
  transitivity (rsum d (fun i => nsum m (fun jx => nsum n (fun ix => f (i :: ix) jx)))).
  - apply rsum_ext. intros; apply IH.
  - symmetry. apply (nsum_rsum m d (fun jx i => nsum n (fun ix => f (i :: ix) jx))).
Qed.
Lemma nsum_flat n : forall f, rsum (prodn n) (fun r => f (unravel n r)) = nsum n f.
Proof.
  induction n as [|d n IH]; intros f; cbn [nsum prodn unravel]; [cbn; ring|].
  rewrite rsum_mul. apply rsum_ext. intros i Hi. rewrite <- IH. apply rsum_ext. intros j Hj.
  now rewrite div_add_l, mod_add_l by auto.
Qed.
Lemma nsum_prod n : forall F : nat -> nat -> R,
  nsum n (fun j => rprod (length n) (fun d => F d (nth d j 0%nat))) = rprod (length n) (fun d => rsum (nth d n 0%nat) (F d)).
Proof.
  induction n as [|d n IH]; intros F; [reflexivity|]. cbn [nsum length]. rewrite rprod_S_l. cbn [nth].
  rewrite <- (IH (fun d => F (S d))). rewrite <- rsum_scal_r. apply rsum_ext. intros i Hi.
  rewrite <- nsum_scal. apply nsum_ext. intros ix _. rewrite rprod_S_l. reflexivity.
Qed.
Lemma nsum_single n : forall j f, valid n j -> (forall ix, valid n ix -> ix <> j -> f ix = 0) -> nsum n f = f j.
Proof.
  induction n as [|d n IH]; intros [|i j] f Hj Z; cbn in Hj; try tauto; cbn [nsum]; auto. destruct Hj as [Hi Hj].
  rewrite (rsum_single d i); auto.
  - apply (IH j (fun ix => f (i :: ix))); auto. intros ix Hix Ne. apply Z; [now split|congruence].
  - intros k Hk Hne. rewrite (nsum_ext n _ (fun _ => 0 * 0)) by (intros; rewrite Z; [ring|now split|congruence]).
    rewrite nsum_scal. ring.
Qed.
Lemma valid_nth n : forall j d, valid n j -> (d < length n)%nat -> (nth d j 0 < nth d n 0)%nat.
Proof.
  induction n as [|a n IH]; intros [|i j] d V Hd; cbn in *; try tauto; try lia.
  destruct V as [V1 V2]. destruct d; auto. apply IH; auto. lia.
Qed.
Lemma valid_intro n : forall j, length j = length n -> (forall d, (d < length n)%nat -> (nth d j 0 < nth d n 0)%nat) -> valid n j.
Proof.
  induction n as [|a n IH]; intros [|i j] L V; cbn in *; try discriminate; auto.
  split; [apply (V 0%nat); lia|]. apply IH; [lia|]. intros d Hd. apply (V (S d)). lia.
Qed.

(** ** The basis *)

(** One dimension: the factor with flipped denominators. *)
Lemma flipped n len j x : len <> 0 -> (j < n)%nat ->
  rprod n (fun m => if negb (Nat.eqb j m) then (x - node n len m) / (node n len m - node n len j) else 1) =
  (-1) ^ (n - 1) * lag n len j x.
Proof.
  intros Hl Hj. destruct (Nat.eq_dec n 1) as [->|Hn].
  - replace j with 0%nat by lia. rewrite lag_1. cbn. ring.
  - rewrite lag_eq by auto.
    assert (E : forall k, (k <= n)%nat ->
      rprod k (fun m => if negb (Nat.eqb j m) then (x - node n len m) / (node n len m - node n len j) else 1) =
      (-1) ^ (if Nat.ltb j k then k - 1 else k) *
      rprod k (fun m => if negb (Nat.eqb m j) then (x - node n len m) / (node n len j - node n len m) else 1)).
    { induction k; intros Hk; [cbn; ring|]. cbn [rprod]. rewrite IHk by lia. rewrite (Nat.eqb_sym k j).
      destruct (Nat.eqb_spec j k) as [->|Hne]; cbn [negb].
      - rewrite Nat.ltb_irrefl. destruct (Nat.ltb_spec k (S k)); [|lia]. replace (S k - 1)%nat with k by lia. ring.
      - pose proof (node_distinct n len Hl j k Hj Hk Hne) as D.
        replace ((x - node n len k) / (node n len k - node n len j)) with (-1 * ((x - node n len k) / (node n len j - node n len k)))
          by (field; split; lra).
        destruct (Nat.ltb_spec j k), (Nat.ltb_spec j (S k)); try lia.
        + replace (S k - 1)%nat with (S (k - 1)) by lia. cbn [pow]. ring.
        + cbn [pow]. ring. }
    rewrite E by lia. destruct (Nat.ltb_spec j n); [reflexivity|lia].
Qed.

(** Sum of (n_d - 1). *)
Fixpoint degree (n : list nat) : nat := match n with [] => 0 | a :: n => a - 1 + degree n end.
Lemma sign_prod n : rprod (length n) (fun d => (-1) ^ (nth d n 0%nat - 1)) = (-1) ^ degree n.
Proof.
  induction n as [|a n IH]; [reflexivity|]. cbn [length degree]. rewrite rprod_S_l. cbn [nth]. rewrite IH. now rewrite pow_add.
Qed.
Lemma sign_sq k : (-1) ^ k * (-1) ^ k = 1.
Proof. rewrite <- Rpow_mult_distr. replace (-1 * -1) with 1 by ring. apply pow1. Qed.

(** Tensor product basis function [j] at [v]. *)
Definition lag_nd (n : list nat) (len : R) (j : list nat) (v : nat -> R) : R :=
  rprod (length n) (fun d => lag (nth d n 0%nat) len (nth d j 0%nat) (v d)).

Lemma grid_eq n len j d : valid n j -> (d < length n)%nat -> grid n len j d = node (nth d n 0%nat) len (nth d j 0%nat).
Proof. intros V H. unfold grid. pose proof (valid_nth n j d V H). rewrite node_eq, lobatto_cheb by lia. reflexivity. Qed.

Lemma lag_nd_exact n len f v : len <> 0 -> poly_nd n f ->
  nsum n (fun j => lag_nd n len j v * f (grid n len j)) = f v.
Proof.
  intros Hl (c & Hc). rewrite Hc.
  rewrite (nsum_ext n _ (fun j => nsum n (fun a => c a * rprod (length n) (fun d =>
     lag (nth d n 0%nat) len (nth d j 0%nat) (v d) * node (nth d n 0%nat) len (nth d j 0%nat) ^ nth d a 0%nat)))).
  2:{ intros j Hj. rewrite Hc, <- nsum_scal. apply nsum_ext. intros a Ha. rewrite rprod_mult. unfold lag_nd.
      rewrite (rprod_ext _ (fun d => grid n len j d ^ nth d a 0%nat) (fun d => node (nth d n 0%nat) len (nth d j 0%nat) ^ nth d a 0%nat)).
      - ring.
      - intros d Hd. now rewrite (grid_eq n len j d). }
  rewrite nsum_swap. apply nsum_ext. intros a Ha. rewrite nsum_scal. f_equal.
  rewrite (nsum_prod n (fun d j => lag (nth d n 0%nat) len j (v d) * node (nth d n 0%nat) len j ^ nth d a 0%nat)).
  apply rprod_ext. intros d Hd.
  apply (interp_exact (nth d n 0%nat) len (fun x => x ^ nth d a 0%nat) Hl).
  apply (poly_lt_mono (S (nth d a 0%nat))); [now apply valid_nth|apply poly_lt_pow].
Qed.

Lemma lag_nd_delta n len i j : len <> 0 -> valid n i -> valid n j ->
  lag_nd n len j (grid n len i) = if index_eqb i j then 1 else 0.
Proof.
  intros Hl Hi Hj. unfold lag_nd.
  rewrite (rprod_ext _ _ (fun d => if Nat.eqb (nth d i 0%nat) (nth d j 0%nat) then 1 else 0)).
  2:{ intros d Hd. rewrite grid_eq by auto. apply lag_delta; auto; now apply valid_nth. }
  destruct (index_eqb i j) eqn:E.
  - apply index_eqb_eq in E. subst. apply rprod_one. intros. now rewrite Nat.eqb_refl.
  - assert (X : exists d, (d < length n)%nat /\ nth d i 0%nat <> nth d j 0%nat).
    { assert (Li := valid_length n i Hi). assert (Lj := valid_length n j Hj). clear - E Li Lj.
      revert i j E Li Lj. induction n as [|a n IH]; intros [|x i] [|y j] E Li Lj; try discriminate.
      cbn in E. destruct (Nat.eqb_spec x y); cbn in E.
      - destruct (IH i j E) as (d & Hd & Hne); cbn in *; try lia. exists (S d). split; [lia|exact Hne].
      - exists 0%nat. cbn. split; [lia|auto]. }
    destruct X as (d & Hd & Hne). apply (rprod_zero _ _ d Hd). apply Nat.eqb_neq in Hne. now rewrite Hne.
Qed.

Lemma lag_nd_sum n len v : len <> 0 -> Forall (fun a => 1 <= a)%nat n -> nsum n (fun j => lag_nd n len j v) = 1.
Proof.
  intros Hl F. unfold lag_nd. rewrite (nsum_prod n (fun d j => lag (nth d n 0%nat) len j (v d))).
  apply rprod_one. intros d Hd. apply lag_partition; auto. rewrite Forall_forall in F. apply F. now apply nth_In.
Qed.

(** ** The model's tables *)
Lemma compute_indexes_spec n : n <> [] ->
  exists t, nd_compute_indexes n = Ok t /\ shape t = [prodn n; length n] /\
    forall r d, (r < prodn n)%nat -> (d < length n)%nat -> at_ t [r; d] = nth d (unravel n r) 0%nat.
Proof.
  intros Hn. unfold nd_compute_indexes. destruct n as [|a n']; [congruence|]. set (n := a :: n') in *.
  set (mesh := stack (length n) n _). assert (Sm : shape mesh = length n :: n) by reflexivity.
  assert (L : (0 < length n)%nat) by (cbn; lia).
  unfold view_infer. cbn [prodn]. rewrite !Nat.mul_1_r.
  destruct (Nat.eqb_spec (length n) 0); [lia|].
  assert (N : numel mesh = (length n * prodn n)%nat) by reflexivity. rewrite N.
  rewrite Nat.mul_comm, Nat.mod_mul by lia. cbn [Nat.eqb]. rewrite Nat.div_mul by lia.
  unfold reshape. cbn [app]. rewrite N. replace (prodn [length n; prodn n]) with (length n * prodn n)%nat by (cbn; lia).
  rewrite Nat.eqb_refl. cbn [rbind]. eexists; split; [reflexivity|]. split; [reflexivity|].
  intros r d Hr Hd. cbn [permute at_ shape map seq length nth index_of Nat.eqb]. rewrite Sm.
  replace (ravel [length n; prodn n] [d; r]) with (ravel (length n :: n) (d :: unravel n r)).
  - rewrite unravel_ravel by (split; auto; now apply unravel_valid). reflexivity.
  - cbn [ravel prodn]. rewrite ravel_unravel by auto. lia.
Qed.

Lemma basis_nd_spec n len : n <> [] ->
  exists p, LagrangeBasisND n len = Ok p /\ nd_n p = n /\ nd_num_basis p = prodn n /\
    (forall x B I D, shape x = [B; I; D] -> (length n <= D)%nat -> exists t, nd_compute_basis p x = Ok t /\ shape t = [prodn n; B; I] /\
       (len <> 0 -> forall r b i, (r < prodn n)%nat ->
          at_ t [r; b; i] = (-1) ^ degree n * lag_nd n len (unravel n r) (fun d => at_ x [b; i; d]))) /\
    (forall r d, (r < prodn n)%nat -> (d < length n)%nat -> at_ (nd_indexes p) [r; d] = nth d (unravel n r) 0%nat) /\
    (forall d, (d < length n)%nat -> shape (nth d (nd_X p) no_tensor) = [nth d n 0%nat] /\
       forall m, at_ (nth d (nd_X p) no_tensor) [m] = node (nth d n 0%nat) len m) /\
    shape (nd_indexes p) = [prodn n; length n].
Proof.
  intros Hn. destruct (compute_indexes_spec n Hn) as (t & Et & St & Vt).
  unfold LagrangeBasisND. rewrite Et. cbn [rbind]. eexists; split; [reflexivity|]. cbn [nd_n nd_num_basis nd_indexes nd_X].
  split; [reflexivity|]. split; [reflexivity|].
  assert (X : forall d, (d < length n)%nat ->
     nth d (map (fun ni => tmap (fun c => len / 2 * c) (chebyshevLobatto ni)) n) no_tensor = tmap (fun c => len / 2 * c) (chebyshevLobatto (nth d n 0%nat))).
  { intros d Hd. rewrite (nth_indep _ no_tensor (tmap (fun c => len / 2 * c) (chebyshevLobatto 0))) by (now rewrite map_length).
    apply (map_nth (fun ni => tmap (fun c => len / 2 * c) (chebyshevLobatto ni))). }
  split; [|split; [exact Vt|split; [|exact St]]].
  - intros x B J D Hx HD. unfold nd_compute_basis, as_points. rewrite Hx. cbv zeta. rewrite Hx. cbn [nd_n nd_num_basis nd_indexes nd_X nd_denominators].
    destruct (Nat.ltb_spec D (length n)); [lia|]. eexists; split; [reflexivity|]. split; [reflexivity|].
    intros Hl r b i Hr. cbn [at_]. unfold lag_nd. rewrite <- sign_prod, <- rprod_mult. apply rprod_ext. intros d Hd.
    rewrite Vt by auto. set (j := nth d (unravel n r) 0%nat).
    assert (Hj : (j < nth d n 0)%nat) by (apply valid_nth; auto; now apply unravel_valid).
    rewrite <- flipped by auto. apply rprod_ext. intros m Hm. destruct (Nat.eqb_spec j m) as [|Hne]; [reflexivity|]. cbn [negb].
    rewrite X by auto.
    rewrite (nth_indep _ no_tensor (nd_denominator (tmap (fun c => len / 2 * c) (chebyshevLobatto 0)))) by (now rewrite !map_length).
    rewrite map_map. rewrite (map_nth (fun ni => nd_denominator (tmap (fun c => len / 2 * c) (chebyshevLobatto ni)))).
    cbn [nd_denominator at_ tmap]. change (at_ (chebyshevLobatto (nth d n 0%nat)) [m]) with (cheb (nth d n 0%nat) m).
    change (at_ (chebyshevLobatto (nth d n 0%nat)) [j]) with (cheb (nth d n 0%nat) j). rewrite <- !node_eq.
    destruct (Req_EM_T _ 0) as [Z|Z]; [|reflexivity].
    pose proof (node_distinct (nth d n 0%nat) len Hl m j Hm Hj ltac:(auto)). lra.
  - intros d Hd. rewrite X by auto. cbn [tmap shape at_]. split; [apply cheb_shape|]. intros m. rewrite node_eq. reflexivity.
Qed.

(** ** PolynomialND *)
Lemma nd_interpolate_spec n len x w B J D O : n <> [] -> (length n <= D)%nat -> shape x = [B; J; D] -> shape w = [O; J; prodn n] ->
  exists p y, LagrangeBasisND n len = Ok p /\ nd_interpolate p x w = Ok y /\ shape y = [B; O] /\
    (len <> 0 -> forall b o, (b < B)%nat -> (o < O)%nat ->
       at_ y [b; o] = (-1) ^ degree n * rsum J (fun i => nsum n (fun j => lag_nd n len j (fun d => at_ x [b; i; d]) * at_ w [o; i; ravel n j]))).
Proof.
  intros Hn HD Hx Hw. destruct (basis_nd_spec n len Hn) as (p & Ep & _ & _ & Hb & _ & _). exists p.
  destruct (Hb x B J D Hx HD) as (t & Et & St & Vt).
  unfold nd_interpolate. rewrite Et. cbn [rbind]. unfold einsum2. rewrite St, Hw. cbn -[prodn]. rewrite !bsize_refl. cbn -[prodn]. rewrite ?bsize_refl. cbn -[prodn]. rewrite ?bsize_refl. cbn -[prodn].
  eexists; split; [exact Ep|]. split; [reflexivity|]. split; [reflexivity|].
  intros Hl b o Hbb Ho. cbn -[prodn]. rewrite rsum_swap, <- rsum_scal. apply rsum_ext. intros i Hi.
  rewrite <- nsum_flat, <- rsum_scal. apply rsum_ext. intros r Hr.
  rewrite !(bc_id B), !(bc_id J), !(bc_id O), !(bc_id (prodn n)) by auto. rewrite Vt by auto.
  rewrite ravel_unravel by auto. ring.
Qed.

Lemma nd_piecewise_interpolate_spec n len x w B J D O : n <> [] -> (length n <= D)%nat -> shape x = [B; J; D] -> shape w = [B; J; O; prodn n] ->
  exists p y, LagrangeBasisND n len = Ok p /\ nd_piecewise_interpolate p x w = Ok y /\ shape y = [B; O] /\
    (len <> 0 -> forall b o, (b < B)%nat -> (o < O)%nat ->
       at_ y [b; o] = (-1) ^ degree n * rsum J (fun i => nsum n (fun j => lag_nd n len j (fun d => at_ x [b; i; d]) * at_ w [b; i; o; ravel n j]))).
Proof.
  intros Hn HD Hx Hw. destruct (basis_nd_spec n len Hn) as (p & Ep & _ & _ & Hb & _ & _). exists p.
  destruct (Hb x B J D Hx HD) as (t & Et & St & Vt).
  unfold nd_piecewise_interpolate. rewrite Et. cbn [rbind]. unfold einsum2. rewrite St, Hw. cbn -[prodn]. rewrite !bsize_refl. cbn -[prodn]. rewrite ?bsize_refl. cbn -[prodn]. rewrite ?bsize_refl. cbn -[prodn]. rewrite ?bsize_refl. cbn -[prodn].
  eexists; split; [exact Ep|]. split; [reflexivity|]. split; [reflexivity|].
  intros Hl b o Hbb Ho. cbn -[prodn]. rewrite rsum_swap, <- rsum_scal. apply rsum_ext. intros i Hi.
  rewrite <- nsum_flat, <- rsum_scal. apply rsum_ext. intros r Hr.
  rewrite !(bc_id B), !(bc_id J), !(bc_id O), !(bc_id (prodn n)) by auto. rewrite Vt by auto.
  rewrite ravel_unravel by auto. ring.
Qed.

(** ** PiecewiseND *)

Lemma fold_ravel sl : forall (G : nat -> nat) acc,
  fold_left Z.add (map (fun d => (Z.of_nat (G d) * Z.of_nat (prodn (skipn (d + 1) sl)))%Z) (seq 0 (length sl))) acc =
  (acc + Z.of_nat (ravel sl (map G (seq 0 (length sl)))))%Z.
Proof.
  induction sl as [|a sl IH]; intros G acc; cbn [length seq map ravel fold_left]; [lia|].
  rewrite <- seq_shift, !map_map. cbn [Nat.add skipn].
  rewrite (IH (fun d => G (S d))). lia.
Qed.

(** The piecewise layer whose coordinate functions dimension [d] of [l] uses. *)
Definition pd_axis (l : piecewise_nd) (d : nat) : piecewise :=
  new_piecewise PiecewisePolynomial 1 1 1 (pd_segments_at l d) (pd_length l) 1 None (fun _ _ => 0).
Lemma pd_segment_index_axis l d x : pd_segment_index l d x = segment_index (pd_axis l d) x.
Proof. reflexivity. Qed.
Lemma pd_x_local_axis l d x k : pd_x_local l d x k = x_local (pd_axis l d) x k.
Proof. reflexivity. Qed.

(** Layers from [new_PiecewiseND] with lists of equal length. *)
Definition pd_cell (l : piecewise_nd) (v : nat -> R) : list nat :=
  map (fun d => seg (pd_axis l d) (v d)) (seq 0 (length (pd_segments l))).
Definition pd_wf (l : piecewise_nd) : Prop :=
  (2 <= length (pd_n l))%nat /\ length (pd_segments l) = length (pd_n l) /\ pd_dimensions l = length (pd_n l) /\
  Forall (fun a => 1 <= a)%nat (pd_segments l) /\ Forall (fun a => 1 <= a)%nat (pd_n l) /\
  LagrangeBasisND (pd_n l) (pd_length l) = Ok (pd_basis l) /\
  exists K, shape (pd_w l) = [K] /\ (prodn (pd_segments l) * prodn (pd_n l) <= K)%nat.

Lemma Forall_nth1 l d : Forall (fun a => 1 <= a)%nat l -> (d < length l)%nat -> (1 <= nth d l 0)%nat.
Proof. intros F H. rewrite Forall_forall in F. apply F. now apply nth_In. Qed.

Lemma pd_segments_at_nth l d : (2 <= length (pd_segments l))%nat -> pd_segments_at l d = nth d (pd_segments l) 0%nat.
Proof. intros H. unfold pd_segments_at, bc. destruct (Nat.eqb_spec (length (pd_segments l)) 1); [lia|reflexivity]. Qed.

Lemma pd_cell_valid l v : pd_wf l -> valid (pd_segments l) (pd_cell l v).
Proof.
  intros (H1 & H2 & _ & F & _). apply valid_intro; [unfold pd_cell; now rewrite map_length, seq_length|].
  intros d Hd. unfold pd_cell. rewrite (nth_indep _ 0%nat (seg (pd_axis l 0) (v 0%nat))) by (now rewrite map_length, seq_length).
  rewrite (map_nth (fun d => seg (pd_axis l d) (v d))), seq_nth by auto. cbn [Nat.add].
  assert (E : pw_segments (pd_axis l d) = nth d (pd_segments l) 0%nat) by (cbn; apply pd_segments_at_nth; lia).
  rewrite <- E. apply seg_lt. rewrite E. now apply Forall_nth1.
Qed.
Lemma pd_cell_nth l v d : (d < length (pd_segments l))%nat -> nth d (pd_cell l v) 0%nat = seg (pd_axis l d) (v d).
Proof.
  intros Hd. unfold pd_cell. rewrite (nth_indep _ 0%nat (seg (pd_axis l 0) (v 0%nat))) by (now rewrite map_length, seq_length).
  now rewrite (map_nth (fun d => seg (pd_axis l d) (v d))), seq_nth by auto.
Qed.

Lemma reshape_same {A} s (t : tensor A) : shape t = s -> exists u, reshape s t = Ok u /\ shape u = s /\ forall ix, valid s ix -> at_ u ix = at_ t ix.
Proof.
  intros Hs. unfold reshape, numel. rewrite Hs, Nat.eqb_refl. eexists; split; [reflexivity|]. split; [reflexivity|].
  intros ix Hix. cbn [at_]. now rewrite unravel_ravel.
Qed.

Lemma index_ok_nat d m : (m < d)%nat -> index_ok d (Z.of_nat m) = true.
Proof. intros H. unfold index_ok. apply andb_true_iff. split; [apply Z.leb_le|apply Z.ltb_lt]; lia. Qed.

Lemma piecewise_nd_forward l x B J : pd_wf l -> (1 <= B)%nat -> (1 <= J)%nat -> shape x = [B; J; length (pd_n l)] ->
  exists y, PiecewiseND_forward l x = Ok y /\ shape y = [B; pd_out l] /\
    (pd_length l <> 0 -> forall b o, (b < B)%nat -> (o < pd_out l)%nat ->
      at_ y [b; o] = (-1) ^ degree (pd_n l) * rsum J (fun i =>
        let v := fun d => at_ x [b; i; d] in
        nsum (pd_n l) (fun j =>
          lag_nd (pd_n l) (pd_length l) j (fun d => x_local (pd_axis l d) (v d) (Z.of_nat (seg (pd_axis l d) (v d)))) *
          at_ (pd_w l) [ravel (pd_segments l) (pd_cell l v) * prodn (pd_n l) + ravel (pd_n l) j]%nat))).
Proof.
  intros W HB HJ Hx. pose proof W as (H1 & H2 & H3 & F1 & F2 & Eb & K & HK & HKle).
  set (D := length (pd_n l)) in *.
  unfold PiecewiseND_forward, pd_which_segment. rewrite Hx.
  destruct (Nat.ltb_spec D 2); [lia|]. destruct (Nat.eqb_spec (B * J) 0); [nia|].
  rewrite H2, bsize_refl. cbn [rbind nth].
  set (sg := mkT [B; J; D] _). set (xl := mkT (shape sg) _).
  assert (Sg : forall b i d, at_ sg [b; i; d] = segment_index (pd_axis l d) (at_ x [b; i; d])).
  { intros. unfold sg. cbn [at_]. rewrite pd_segment_index_axis. unfold bc. destruct (Nat.eqb_spec D 1); [lia|reflexivity]. }
  assert (Sg' : forall b i d, (d < D)%nat -> at_ sg [b; i; d] = Z.of_nat (seg (pd_axis l d) (at_ x [b; i; d]))).
  { intros b i d Hd. rewrite Sg. apply seg_Z. cbn. rewrite pd_segments_at_nth by lia. apply Forall_nth1; auto. lia. }
  unfold pd_weight_indices. change (shape sg) with [B; J; D]. cbv iota. rewrite H3.
  destruct (Nat.ltb_spec D D); [lia|]. cbn [rbind].
  set (wi := mkT [B; J; prodn (pd_n l)] _).
  assert (Vwi : forall b i k, at_ wi [b; i; k] =
     Z.of_nat (ravel (pd_segments l) (pd_cell l (fun d => at_ x [b; i; d])) * prodn (pd_n l) + k)).
  { intros b i k. unfold wi. cbn [at_].
    rewrite (map_ext_in _ (fun d => (Z.of_nat (seg (pd_axis l d) (at_ x [b; i; d])) * Z.of_nat (prodn (skipn (d + 1) (pd_segments l))))%Z)).
    2:{ intros d Hd. apply in_seq in Hd. rewrite Sg' by lia. reflexivity. }
    rewrite <- H2. rewrite (fold_ravel (pd_segments l) (fun d => seg (pd_axis l d) (at_ x [b; i; d]))).
    unfold pd_cell. lia. }
  assert (Lt : forall b i k, (k < prodn (pd_n l))%nat ->
     (ravel (pd_segments l) (pd_cell l (fun d => at_ x [b; i; d])) * prodn (pd_n l) + k < K)%nat).
  { intros b i k Hk. pose proof (ravel_lt _ _ (pd_cell_valid l (fun d => at_ x [b; i; d]) W)). nia. }
  unfold pd_reshape_weights. change (shape wi) with [B; J; prodn (pd_n l)]. rewrite HK. cbv iota.
  replace (forallb _ _) with true.
  2:{ symmetry. apply forallb_forall. intros m Hm. apply in_seq in Hm.
      cbn [flatten at_]. change (shape wi) with [B; J; prodn (pd_n l)].
      replace (ravel [numel wi] [m]) with m by (cbn; lia).
      destruct (valid3 _ _ _ _ (unravel_valid [B; J; prodn (pd_n l)] m ltac:(unfold numel in Hm; cbn [wi shape] in Hm; lia))) as (b & i & k & -> & Hb & Hi & Hk).
      rewrite Vwi. apply index_ok_nat. now apply Lt. }
  cbn [app].
  destruct (reshape_same [B; J; pd_out l; prodn (pd_n l)] (mkT [B; J; pd_out l; prodn (pd_n l)] (fun ix => match ix with
                | b :: i :: o :: j :: tl => at_ (pd_w l) (wrap K (at_ wi [b; i; j]) :: tl)
                | _ => 0 end)) eq_refl) as (u & Eu & Su & Vu).
  rewrite Eu. cbn [rbind].
  destruct (nd_piecewise_interpolate_spec (pd_n l) (pd_length l) xl u B J D (pd_out l)) as (p & y & Ep & Ey & Sy & Vy); auto.
  { intros E0. unfold D in H1. rewrite E0 in H1. cbn in H1. lia. }
  rewrite Eb in Ep. injection Ep as <-. exists y. split; [exact Ey|]. split; [exact Sy|].
  intros Hl b o Hb Ho. rewrite Vy by auto. f_equal. apply rsum_ext. intros i Hi. cbv zeta. apply nsum_ext. intros j Hj. f_equal.
  - unfold lag_nd. apply rprod_ext. intros d Hd. f_equal. transitivity (pd_x_local l d (at_ x [b; i; bc D d]) (at_ sg [b; i; d])); [reflexivity|].
    rewrite Sg' by auto. rewrite pd_x_local_axis. unfold bc. destruct (Nat.eqb_spec D 1); [lia|reflexivity].
  - pose proof (ravel_lt _ _ Hj). rewrite Vu by (cbn; tauto). cbn [at_]. rewrite Vwi, wrap_nat by lia. now rewrite Nat2Z.id.
Qed.
