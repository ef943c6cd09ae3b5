(** * N-dimensional elements (C40, C41). *)
From Coq Require Import String Reals ZArith List Lia Lra Bool.
From Verif Require Import Spec Tensor Utils LagrangePolynomial Basis PolynomialLayers LagrangeND Observe
  SumFacts TensorFacts LagrangeFacts LayerFacts SegmentFacts LayerProofs NDFacts.
Import ListNotations.
Local Open Scope R_scope.

(** ** C40 *)

(** Row [r] of the index table. *)
Definition index_row (p : lagrange_nd) (r : nat) : list nat :=
  map (fun d => at_ (nd_indexes p) [r; d]) (seq 0 (length (nd_n p))).
(** A batch with one sample of one input whose coordinates are [v]. *)
Definition one_point (D : nat) (v : nat -> R) : tensor R := mkT [1; 1; D]%nat (fun ix => v (nth 2 ix 0%nat)).
(** Sum of (n_d - 1), total degree of the element. *)
Definition total_degree (n : list nat) : nat := fold_right (fun a s => (a - 1 + s)%nat) 0%nat n.

Lemma index_row_unravel n len p r : n <> [] -> LagrangeBasisND n len = Ok p -> (r < prodn n)%nat -> index_row p r = unravel n r.
Proof.
  intros Hn E Hr. destruct (basis_nd_spec n len Hn) as (p' & E' & En & _ & _ & Vi & _). rewrite E in E'. injection E' as <-.
  unfold index_row. rewrite En. assert (L := valid_length _ _ (unravel_valid n r Hr)).
  apply (nth_ext _ _ 0%nat 0%nat); [now rewrite map_length, seq_length|].
  rewrite map_length, seq_length. intros d Hd.
  rewrite (nth_indep _ 0%nat (at_ (nd_indexes p) [r; 0%nat])) by (now rewrite map_length, seq_length).
  rewrite (map_nth (fun d => at_ (nd_indexes p) [r; d])), seq_nth by auto. cbn [Nat.add]. now apply Vi.
Qed.

(** The table lists every multi-index exactly once. *)
Theorem C40_enumeration : forall n len, n <> [] -> exists p, LagrangeBasisND n len = Ok p /\
  shape (nd_indexes p) = [nd_num_basis p; length n] /\
  (forall r, (r < nd_num_basis p)%nat -> valid n (index_row p r)) /\
  (forall j, valid n j -> exists! r, (r < nd_num_basis p)%nat /\ index_row p r = j).
Proof.
  intros n len Hn. destruct (basis_nd_spec n len Hn) as (p & E & En & Enb & _ & _ & _ & Si). exists p. rewrite Enb.
  split; [exact E|]. split; [exact Si|]. split.
  - intros r Hr. rewrite (index_row_unravel n len) by auto. now apply unravel_valid.
  - intros j Hj. exists (ravel n j). split.
    + split; [now apply ravel_lt|]. rewrite (index_row_unravel n len) by (auto; now apply ravel_lt). now apply unravel_ravel.
    + intros r [Hr Er]. rewrite (index_row_unravel n len) in Er by auto. rewrite <- Er. now apply ravel_unravel.
Qed.
Print Assumptions C40_enumeration.

(** Basis function [r] at the grid points: zero except at its own point, where it is 1 or -1. *)
Theorem C40_basis_at_nodes : forall n len, n <> [] -> len <> 0 -> exists p, LagrangeBasisND n len = Ok p /\
  forall j, valid n j -> exists t, nd_compute_basis p (one_point (length n) (grid n len j)) = Ok t /\
    forall r, (r < nd_num_basis p)%nat ->
      at_ t [r; 0; 0]%nat = if index_eqb (index_row p r) j then (-1) ^ total_degree n else 0.
Proof.
  intros n len Hn Hl. destruct (basis_nd_spec n len Hn) as (p & E & En & Enb & Hb & _). exists p. split; [exact E|].
  intros j Hj. destruct (Hb (one_point (length n) (grid n len j)) 1%nat 1%nat (length n) eq_refl (le_n _)) as (t & Et & St & Vt).
  exists t. split; [exact Et|]. rewrite Enb. intros r Hr. rewrite Vt by auto. rewrite (index_row_unravel n len) by auto.
  change (fun d => at_ (one_point (length n) (grid n len j)) [0; 0; d]%nat) with (grid n len j).
  rewrite lag_nd_delta by (auto; now apply unravel_valid).
  change (total_degree n) with (fold_right (fun a s => (a - 1 + s)%nat) 0%nat n).
  assert (D : fold_right (fun a s => (a - 1 + s)%nat) 0%nat n = degree n) by (clear; induction n; cbn; congruence). rewrite D.
  replace (index_eqb j (unravel n r)) with (index_eqb (unravel n r) j).
  - destruct (index_eqb _ _); ring.
  - destruct (index_eqb (unravel n r) j) eqn:A, (index_eqb j (unravel n r)) eqn:B; auto.
    + apply index_eqb_eq in A. rewrite A, index_eqb_refl in B. discriminate.
    + apply index_eqb_eq in B. rewrite <- B, index_eqb_refl in A. discriminate.
Qed.
Print Assumptions C40_basis_at_nodes.

(** A PolynomialND layer whose weights are the values of polynomials on the grid returns the sum of the
    polynomials times (-1)^(total degree). *)
Theorem C40_polynomial_nd_exact : forall n I O len mag draw (w x : tensor R) B (f : nat -> nat -> (nat -> R) -> R),
  n <> [] -> len <> 0 -> shape w = [O; I; prodn n] -> shape x = [B; I; length n] ->
  (forall o i, poly_nd n (f o i)) ->
  (forall o i j, (o < O)%nat -> (i < I)%nat -> valid n j -> at_ w [o; i; ravel n j] = f o i (grid n len j)) ->
  exists l y, new_PolynomialND (Ints n) I O len mag None draw = Ok l /\ shape (pn_w l) = shape w /\
    PolynomialND_forward (mkPND (pn_poly l) (pn_periodicity l) w) x = Ok y /\ shape y = [B; O] /\
    forall b o, (b < B)%nat -> (o < O)%nat ->
      at_ y [b; o] = (-1) ^ total_degree n * rsum I (fun i => f o i (fun d => at_ x [b; i; d])).
Proof.
  intros n I O len mag draw w x B f Hn Hl Hw Hx Hf Hv.
  destruct (nd_interpolate_spec n len x w B I (length n) O Hn (le_n _) Hx Hw) as (p & y & Ep & Ey & Sy & Vy).
  destruct (basis_nd_spec n len Hn) as (p' & Ep' & _ & Enb & _). rewrite Ep in Ep'. injection Ep' as <-.
  unfold new_PolynomialND. rewrite Ep. cbn [rbind]. eexists; exists y. split; [reflexivity|].
  cbn [pn_poly pn_periodicity pn_w]. split; [rewrite Hw, <- Enb; reflexivity|].
  split. { unfold PolynomialND_forward. cbn [pn_poly pn_periodicity pn_w]. destruct x as [sx ax]. exact Ey. }
  split; [exact Sy|]. intros b o Hb Ho. rewrite Vy by auto.
  assert (D : total_degree n = degree n) by (clear; unfold total_degree; induction n; cbn; congruence). rewrite D. f_equal.
  apply rsum_ext. intros i Hi. rewrite <- (lag_nd_exact n len (f o i)) by auto.
  apply nsum_ext. intros j Hj. now rewrite Hv.
Qed.
Print Assumptions C40_polynomial_nd_exact.

(** Whatever the weights, the layer returns plus or minus the weight at a node: minus exactly when
    the total degree is odd (one input). *)
Theorem C40_weight_at_node : forall n O len mag draw w j, n <> [] -> len <> 0 -> shape w = [O; 1%nat; prodn n] -> valid n j ->
  exists l y, new_PolynomialND (Ints n) 1 O len mag None draw = Ok l /\
    PolynomialND_forward (mkPND (pn_poly l) (pn_periodicity l) w) (one_point (length n) (grid n len j)) = Ok y /\
    forall o, (o < O)%nat -> at_ y [0%nat; o] = (if Nat.even (total_degree n) then 1 else -1) * at_ w [o; 0%nat; ravel n j].
Proof.
  intros n O len mag draw w j Hn Hl Hw Hj.
  destruct (nd_interpolate_spec n len (one_point (length n) (grid n len j)) w 1 1 (length n) O Hn (le_n _) eq_refl Hw) as (p & y & Ep & Ey & Sy & Vy).
  unfold new_PolynomialND. rewrite Ep. cbn [rbind]. eexists; exists y. split; [reflexivity|]. split; [exact Ey|].
  intros o Ho. rewrite Vy by (auto; lia). cbn [rsum]. rewrite Rplus_0_l.
  rewrite (nsum_single n j); auto.
  - change (fun d => at_ (one_point (length n) (grid n len j)) [0; 0; d]%nat) with (grid n len j).
    rewrite lag_nd_delta, index_eqb_refl by auto.
    assert (D : total_degree n = degree n) by (clear; unfold total_degree; induction n; cbn; congruence). rewrite D.
    destruct (Nat.even (degree n)) eqn:Ev.
    + apply Nat.even_spec in Ev. destruct Ev as [k ->]. rewrite pow_mult. replace ((-1) ^ 2) with 1 by ring. rewrite pow1. ring.
    + assert (Od : Nat.odd (degree n) = true) by (unfold Nat.odd; now rewrite Ev). apply Nat.odd_spec in Od. destruct Od as [k ->].
      rewrite pow_add, pow_mult. replace ((-1) ^ 2) with 1 by ring. rewrite pow1. ring.
  - intros i Hi Hne. change (fun d => at_ (one_point (length n) (grid n len j)) [0; 0; d]%nat) with (grid n len j).
    rewrite lag_nd_delta by auto. destruct (index_eqb j i) eqn:E; [|ring]. apply index_eqb_eq in E. congruence.
Qed.
Print Assumptions C40_weight_at_node.

(** With a periodicity p the layer does not change when coordinates are moved by multiples of 2p or mirrored at p/2, and for
    coordinates between -p/2 and p/2 it is the layer without periodicity. *)
Theorem C40_periodic : forall n I O len mag p draw w x x' B,
  n <> [] -> len <> 0 -> 0 < p -> shape w = [O; I; prodn n] -> shape x = [B; I; length n] -> shape x' = [B; I; length n] ->
  (forall b i d, (b < B)%nat -> (i < I)%nat -> (d < length n)%nat ->
     at_ x' [b; i; d] = at_ x [b; i; d] \/ at_ x' [b; i; d] = p - at_ x [b; i; d] \/ exists k, at_ x' [b; i; d] = at_ x [b; i; d] + 2 * p * IZR k) ->
  exists l l0 y y' y0,
    new_PolynomialND (Ints n) I O len mag (Some p) draw = Ok l /\ new_PolynomialND (Ints n) I O len mag None draw = Ok l0 /\
    PolynomialND_forward (mkPND (pn_poly l) (pn_periodicity l) w) x = Ok y /\ shape y = [B; O] /\
    PolynomialND_forward (mkPND (pn_poly l) (pn_periodicity l) w) x' = Ok y' /\ shape y' = [B; O] /\
    PolynomialND_forward (mkPND (pn_poly l0) (pn_periodicity l0) w) x = Ok y0 /\
    forall b o, (b < B)%nat -> (o < O)%nat -> at_ y' [b; o] = at_ y [b; o] /\
      ((forall i d, (i < I)%nat -> (d < length n)%nat -> - (p / 2) <= at_ x [b; i; d] <= p / 2) -> at_ y0 [b; o] = at_ y [b; o]).
Proof.
  intros n I O len mag p draw w x x' B Hn Hl Hp Hw Hx Hx' Hs.
  assert (Spec : forall x, shape x = [B; I; length n] -> exists q y, LagrangeBasisND n len = Ok q /\ nd_interpolate q x w = Ok y /\ shape y = [B; O] /\
    forall b o, (b < B)%nat -> (o < O)%nat -> at_ y [b; o] = (-1) ^ degree n * rsum I (fun i => nsum n (fun j => lag_nd n len j (fun d => at_ x [b; i; d]) * at_ w [o; i; ravel n j]))).
  { intros z Hz. destruct (nd_interpolate_spec n len z w B I (length n) O Hn (le_n _) Hz Hw) as (q & y & Eq & Ey & Sy & Vy). exists q, y. auto. }
  destruct (Spec (tmap (apply_periodicity (Some p)) x) Hx) as (q & y & Eq & Ey & Sy & Vy).
  destruct (Spec (tmap (apply_periodicity (Some p)) x') Hx') as (q' & y' & Eq' & Ey' & Sy' & Vy').
  destruct (Spec (tmap (apply_periodicity None) x) Hx) as (q0 & y0 & Eq0 & Ey0 & Sy0 & Vy0). rewrite Eq in Eq', Eq0. injection Eq' as <-. injection Eq0 as <-.
  unfold new_PolynomialND. rewrite Eq. cbn [rbind]. eexists _, _, y, y', y0. split; [reflexivity|]. split; [reflexivity|].
  unfold PolynomialND_forward. cbn [pn_poly pn_periodicity pn_w]. repeat (split; [assumption|]). intros b o Hb Ho. rewrite Vy, Vy', Vy0 by auto.
  split; [|intros Hr]; f_equal; apply rsum_ext; intros i Hi; apply nsum_ext; intros j Hj; f_equal; unfold lag_nd; apply rprod_ext; intros d Hd; f_equal; cbn [at_ tmap apply_periodicity].
  - destruct (Hs b i d Hb Hi Hd) as [->|[->|(k & ->)]]; auto; [now apply make_periodic_mirror|now apply make_periodic_period].
  - symmetry. apply make_periodic_id; auto.
Qed.
Print Assumptions C40_periodic.
Example C40_periodic_case : exists l y y', new_PolynomialND (Ints [3; 2]%nat) 1 1 2 1 (Some 2) (fun _ _ => 1) = Ok l /\
  PolynomialND_forward (mkPND (pn_poly l) (pn_periodicity l) (mkT [1; 1; 6]%nat (fun ix => INR (nth 2 ix 0%nat)))) (one_point 2 (fun d => INR d / 4)) = Ok y /\
  PolynomialND_forward (mkPND (pn_poly l) (pn_periodicity l) (mkT [1; 1; 6]%nat (fun ix => INR (nth 2 ix 0%nat)))) (one_point 2 (fun d => 2 - INR d / 4)) = Ok y' /\
  at_ y' [0; 0]%nat = at_ y [0; 0]%nat.
Proof.
  destruct (C40_periodic [3; 2]%nat 1 1 2 1 2 (fun _ _ => 1) (mkT [1; 1; 6]%nat (fun ix => INR (nth 2 ix 0%nat)))
    (one_point 2 (fun d => INR d / 4)) (one_point 2 (fun d => 2 - INR d / 4)) 1) as (l & l0 & y & y' & y0 & E & _ & Ey & _ & Ey' & _ & _ & H); try discriminate; try lra; auto.
  exists l, y, y'. repeat (split; [assumption|]). apply (H 0%nat 0%nat); lia.
Qed.

(** An integer n is rejected. *)
Theorem C40_integer_n_rejected : forall k I O len mag per draw, new_PolynomialND (Int k) I O len mag per draw = Err TypeError.
Proof. reflexivity. Qed.
Print Assumptions C40_integer_n_rejected.

Example C40_case_signs : Nat.even (total_degree [3; 2]%nat) = false /\ Nat.even (total_degree [2; 2]%nat) = true /\ Nat.even (total_degree [2; 2; 2]%nat) = false.
Proof. repeat split. Qed.
Example C40_case_poly : poly_nd [2; 3]%nat (fun v => v 0%nat * v 1%nat ^ 2 - 1).
Proof.
  exists (fun a => match a with [1; 2]%nat => 1 | [0; 0]%nat => -1 | _ => 0 end). intros v. cbn. ring.
Qed.
Example C40_case_node : valid [3; 2]%nat [2; 0]%nat.
Proof. cbn. lia. Qed.

(** The same points as one sample, [1, inputs, dimensions]. *)
Definition as_one_sample (x : tensor R) : tensor R := mkT (1%nat :: shape x) (fun ix => at_ x (tl ix)).

Lemma choose_results {A} m (P : nat -> A -> Prop) (dft : A) : (forall i, (i < m)%nat -> exists a, P i a) -> exists F : nat -> A, forall i, (i < m)%nat -> P i (F i).
Proof.
  induction m as [|m IH]; intros H; [exists (fun _ => dft); intros; lia|].
  destruct IH as (F & HF); [intros; apply H; lia|]. destruct (H m) as (a & Ha); [lia|].
  exists (fun i => if Nat.eqb i m then a else F i). intros i Hi. destruct (Nat.eqb_spec i m) as [->|]; [auto|]. apply HF. lia.
Qed.

(** An input without batch dimension is not rejected: its points are the inputs of one sample.  In a layer with one input their
    results are added up to a single row; otherwise their number must be that of the inputs (or one). *)
Theorem C40_points_without_batch : forall n I O len mag per draw (w x : tensor R) B,
  n <> [] -> len <> 0 -> shape w = [O; I; prodn n] -> shape x = [B; length n] ->
  exists l, new_PolynomialND (Ints n) I O len mag per draw = Ok l /\
    let forward := PolynomialND_forward (mkPND (pn_poly l) (pn_periodicity l) w) in
    (B = I -> exists y y', forward x = Ok y /\ forward (as_one_sample x) = Ok y' /\ shape y = [1%nat; O] /\ teq y y') /\
    (I = 1%nat -> exists y ys, forward x = Ok y /\ shape y = [1%nat; O] /\
       (forall b, (b < B)%nat -> forward (one_point (length n) (fun d => at_ x [b; d])) = Ok (ys b)) /\
       forall o, (o < O)%nat -> at_ y [0%nat; o] = rsum B (fun b => at_ (ys b) [0%nat; o])) /\
    (B <> I -> I <> 1%nat -> B <> 1%nat -> forward x = Err RuntimeError).
Proof.
  intros n I O len mag per draw w x B Hn Hl Hw Hx.
  destruct (basis_nd_spec n len Hn) as (p & Ep & En & Enb & Hb & _ & _).
  unfold new_PolynomialND. rewrite Ep. cbn [rbind]. eexists; split; [reflexivity|]. cbv zeta. cbn [pn_poly pn_periodicity pn_w].
  assert (P : forall z s, shape z = s -> nd_compute_basis p z = nd_compute_basis p (as_points z)).
  { intros z s Hz. unfold nd_compute_basis, as_points. rewrite Hz. destruct s as [|a [|b [|c s]]]; cbn [shape]; rewrite ?Hz; reflexivity. }
  set (xp := tmap (apply_periodicity per) x).
  assert (Hxp : shape xp = [B; length n]) by exact Hx.
  assert (Ap : as_points xp = mkT [1%nat; B; length n] (fun ix => at_ xp (tl ix))) by (unfold as_points; now rewrite Hxp).
  destruct (Hb (as_points xp) 1%nat B (length n)) as (t & Et & St & Vt); [rewrite Ap; reflexivity|auto|].
  assert (Ex : PolynomialND_forward (mkPND p per w) x = einsum2 "ibk"%string "oki"%string "bo"%string t w).
  { unfold PolynomialND_forward, nd_interpolate. cbn [pn_poly pn_periodicity pn_w]. fold xp. rewrite (P _ _ Hxp), Et. reflexivity. }
  repeat split.
  - intros ->. destruct (nd_interpolate_spec n len (tmap (apply_periodicity per) (as_one_sample x)) w 1 I (length n) O Hn (le_n _)) as (q & y & Eq & Ey & Sy & _);
      [unfold as_one_sample; cbn [shape tmap]; now rewrite Hx|auto|]. rewrite Ep in Eq. injection Eq as <-.
    assert (Same : PolynomialND_forward (mkPND p per w) x = PolynomialND_forward (mkPND p per w) (as_one_sample x)).
    { unfold PolynomialND_forward, nd_interpolate. cbn [pn_poly pn_periodicity pn_w]. fold xp. rewrite (P _ _ Hxp), Ap.
      unfold as_one_sample, tmap. cbn [shape at_]. rewrite Hx. reflexivity. }
    exists y, y. rewrite Same. split; [exact Ey|]. split; [exact Ey|]. split; [auto|]. split; auto.
  - intros ->. rewrite Ex. unfold einsum2. rewrite St, Hw. cbn -[prodn bsize bc]. rewrite ?bsize_refl. cbn -[prodn bsize bc]. rewrite ?bsize_refl.
    assert (Z1 : bsize B 1 = Some B) by (unfold bsize; destruct (Nat.eqb_spec B 1); subst; reflexivity).
    rewrite Z1. cbn -[prodn bsize bc]. rewrite ?bsize_refl. cbn -[prodn bsize bc].
    assert (Y : forall b, (b < B)%nat -> exists y, PolynomialND_forward (mkPND p per w) (one_point (length n) (fun d => at_ x [b; d])) = Ok y /\
       forall o, (o < O)%nat -> at_ y [0%nat; o] = rsum (prodn n) (fun r => at_ t [r; 0%nat; b] * at_ w [o; 0%nat; r])).
    { intros b Hbb. destruct (nd_interpolate_spec n len (tmap (apply_periodicity per) (one_point (length n) (fun d => at_ x [b; d]))) w 1 1 (length n) O Hn (le_n _) eq_refl Hw)
        as (q & y & Eq & Ey & Sy & Vy). rewrite Ep in Eq. injection Eq as <-. exists y. split; [exact Ey|]. intros o Ho. rewrite Vy by (auto; lia).
      cbn [rsum]. rewrite Rplus_0_l. rewrite <- nsum_flat, <- rsum_scal. apply rsum_ext. intros r Hr. rewrite Vt by auto.
      rewrite ravel_unravel by auto. rewrite Rmult_assoc. f_equal. f_equal. unfold lag_nd. apply rprod_ext. intros d Hd. rewrite Ap. reflexivity. }
    destruct (choose_results B (fun b y => PolynomialND_forward (mkPND p per w) (one_point (length n) (fun d => at_ x [b; d])) = Ok y /\
       forall o, (o < O)%nat -> at_ y [0%nat; o] = rsum (prodn n) (fun r => at_ t [r; 0%nat; b] * at_ w [o; 0%nat; r])) w Y) as (ys & Hys).
    eexists; exists ys. split; [reflexivity|]. split; [reflexivity|]. split; [intros b Hbb; now apply Hys|]. intros o Ho.
    cbn -[prodn bsize bc].
    rewrite rsum_swap. apply rsum_ext. intros b Hbb. rewrite (proj2 (Hys b Hbb)) by auto. apply rsum_ext. intros r Hr.
    rewrite !bc_id by (auto; lia). reflexivity.
  - intros H1 H2 H3. rewrite Ex. unfold einsum2. rewrite St, Hw. cbn -[prodn bsize bc]. rewrite ?bsize_refl. cbn -[prodn bsize bc].
    assert (bsize B I = None) as ->; [|reflexivity]. unfold bsize. destruct (Nat.eqb_spec B I); [lia|]. destruct (Nat.eqb_spec I 1); [lia|]. destruct (Nat.eqb_spec B 1); [lia|]. reflexivity.
Qed.
Print Assumptions C40_points_without_batch.

(** A single point without any batch or input dimension is given to every input of the layer. *)
Theorem C40_single_point : forall n I O len mag per draw (w x : tensor R),
  n <> [] -> len <> 0 -> shape w = [O; I; prodn n] -> shape x = [length n] ->
  exists l y y', new_PolynomialND (Ints n) I O len mag per draw = Ok l /\
    let forward := PolynomialND_forward (mkPND (pn_poly l) (pn_periodicity l) w) in
    forward x = Ok y /\ forward (mkT [1%nat; I; length n] (fun ix => at_ x [nth 2 ix 0%nat])) = Ok y' /\
    shape y = [1%nat; O] /\ shape y' = [1%nat; O] /\ forall o, (o < O)%nat -> at_ y [0%nat; o] = at_ y' [0%nat; o].
Proof.
  intros n I O len mag per draw w x Hn Hl Hw Hx.
  destruct (basis_nd_spec n len Hn) as (p & Ep & En & Enb & Hb & _ & _).
  set (xp := tmap (apply_periodicity per) x).
  assert (Hxp : shape xp = [length n]) by exact Hx.
  assert (Ap : as_points xp = mkT [1%nat; 1%nat; length n] (fun ix => at_ xp (tl (tl ix)))) by (unfold as_points; now rewrite Hxp).
  destruct (Hb (as_points xp) 1%nat 1%nat (length n)) as (t & Et & St & Vt); [rewrite Ap; reflexivity|auto|].
  assert (Ex : PolynomialND_forward (mkPND p per w) x = einsum2 "ibk"%string "oki"%string "bo"%string t w).
  { unfold PolynomialND_forward, nd_interpolate. cbn [pn_poly pn_periodicity pn_w]. fold xp.
    assert (P : nd_compute_basis p xp = nd_compute_basis p (as_points xp)) by (rewrite Ap; unfold nd_compute_basis, as_points; rewrite Hxp; reflexivity).
    rewrite P, Et. reflexivity. }
  set (x1 := mkT [1%nat; I; length n] (fun ix => at_ x [nth 2 ix 0%nat])).
  destruct (nd_interpolate_spec n len (tmap (apply_periodicity per) x1) w 1 I (length n) O Hn (le_n _) eq_refl Hw) as (q & y' & Eq & Ey' & Sy' & Vy').
  rewrite Ep in Eq. injection Eq as <-.
  assert (Ey : exists y, einsum2 "ibk"%string "oki"%string "bo"%string t w = Ok y /\ shape y = [1%nat; O] /\
    forall o, (o < O)%nat -> at_ y [0%nat; o] = rsum (prodn n) (fun r => rsum I (fun i => at_ t [r; 0%nat; 0%nat] * at_ w [o; i; r]))).
  { unfold einsum2. rewrite St, Hw. cbn -[prodn bsize bc]. rewrite ?bsize_refl. cbn -[prodn bsize bc].
    assert (Z1 : bsize 1 I = Some I) by (unfold bsize; destruct (Nat.eqb_spec 1 I); [subst; reflexivity|]; destruct (Nat.eqb_spec I 1); [lia|reflexivity]).
    rewrite Z1. cbn -[prodn bsize bc]. rewrite ?bsize_refl. cbn -[prodn bsize bc]. eexists. split; [reflexivity|]. split; [reflexivity|]. intros o Ho. cbn -[prodn bsize bc].
    apply rsum_ext. intros r Hr. apply rsum_ext. intros i Hi. rewrite (bc_id O o), (bc_id (prodn n) r), (bc_id I i) by lia. reflexivity. }
  destruct Ey as (y & Ey & Sy & Vy). unfold new_PolynomialND. rewrite Ep. cbn [rbind]. eexists; exists y, y'. split; [reflexivity|]. cbv zeta. cbn [pn_poly pn_periodicity pn_w].
  rewrite Ex. split; [exact Ey|]. split; [exact Ey'|]. split; [exact Sy|]. split; [exact Sy'|]. intros o Ho.
  rewrite Vy, Vy' by (auto; lia). rewrite rsum_swap, <- rsum_scal. apply rsum_ext. intros i Hi.
  rewrite <- nsum_flat, <- rsum_scal. apply rsum_ext. intros r Hr. rewrite Vt by (auto; lia).
  rewrite ravel_unravel by auto. rewrite Rmult_assoc. f_equal. f_equal. unfold lag_nd. apply rprod_ext. intros d Hd. rewrite Ap. reflexivity.
Qed.
Print Assumptions C40_single_point.
Example C40_single_point_instance : exists l y, new_PolynomialND (Ints [4%nat; 5%nat]) 2 3 2 1 None (fun _ _ => 0) = Ok l /\
  PolynomialND_forward (mkPND (pn_poly l) (pn_periodicity l) (mkT [3%nat; 2%nat; 20%nat] (fun _ => 1))) (mkT [2%nat] (fun _ => 1/2)) = Ok y /\ shape y = [1%nat; 3%nat].
Proof.
  destruct (C40_single_point [4%nat; 5%nat] 2 3 2 1 None (fun _ _ => 0) (mkT [3%nat; 2%nat; 20%nat] (fun _ => 1)) (mkT [2%nat] (fun _ => 1/2)))
    as (l & y & y' & El & Ey & _ & Sy & _); [discriminate|lra|reflexivity|reflexivity|]. exists l, y. auto.
Qed.

(** Seven points in the plane given to a layer with one input of two dimensions: one row, not seven. *)
Example C40_points_without_batch_instance :
  let x := mkT [7%nat; 2%nat] (fun ix => INR (nth 0 ix 0%nat)) in let w := mkT [3%nat; 1%nat; 20%nat] (fun _ => 1) in
  exists l y, new_PolynomialND (Ints [4%nat; 5%nat]) 1 3 2 1 None (fun _ _ => 0) = Ok l /\
    PolynomialND_forward (mkPND (pn_poly l) (pn_periodicity l) w) x = Ok y /\ shape y = [1%nat; 3%nat].
Proof.
  destruct (C40_points_without_batch [4%nat; 5%nat] 1 3 2 1 None (fun _ _ => 0) (mkT [3%nat; 1%nat; 20%nat] (fun _ => 1))
    (mkT [7%nat; 2%nat] (fun ix => INR (nth 0 ix 0%nat))) 7) as (l & E & _ & H & _); [discriminate|lra|reflexivity|reflexivity|].
  destruct (H eq_refl) as (y & ys & Ey & Sy & _). exists l, y. auto.
Qed.

(** ** C41 *)

(** PiecewiseND layers a user can hold: built with lists of nodes and segments of equal length >= 2 and
    the default initialisation, the weights then having been given any values. *)
Definition held_nd (n sl : list nat) (I O : nat) (len : R) (l : piecewise_nd) : Prop :=
  (2 <= length n)%nat /\ length sl = length n /\
  (forall a, In a n -> 1 <= a)%nat /\ (forall a, In a sl -> 1 <= a)%nat /\ (1 <= I)%nat /\ (1 <= O)%nat /\
  exists dims mag draw u l0 w, (dims = None \/ dims = Some (length n)) /\
    new_PiecewiseND (Ints n) I O (Ints sl) dims len mag true draw u = Ok l0 /\ shape w = shape (pd_w l0) /\
    l = mkPwND (pd_dimensions l0) (pd_n l0) (pd_segments l0) (pd_in l0) (pd_out l0) (pd_length l0) (pd_basis l0) w.

Lemma new_nd_spec n sl I O len dims mag draw u : (2 <= length n)%nat -> length sl = length n -> dims = None \/ dims = Some (length n) ->
  exists p, LagrangeBasisND n len = Ok p /\
  new_PiecewiseND (Ints n) I O (Ints sl) dims len mag true draw u = Ok (mkPwND (length n) n sl I O len p
    (mkT [I * (O * 1) * (prodn sl * prodn n)]%nat (fun ix => at_ (flatten (mkT [I; O] (fun ix =>
          (draw (nth 0 ix 0%nat) (nth 1 ix 0%nat) * 2 * mag - mag) / INR I))) [hd 0 ix / (prodn sl * prodn n)]%nat))).
Proof.
  intros Hn Hs Hd. destruct (basis_nd_spec n len) as (p & Ep & _); [intros ->; cbn in Hn; lia|]. exists p. split; [exact Ep|].
  unfold new_PiecewiseND. cbn [as_list].
  assert (Ed : (match dims, Ints n with None, Int _ => Err ValueError | Some (S d), _ => Ok (S d) | _, Ints l => Ok (length l) | Some O, Int _ => Err TypeError end) = Ok (length n)).
  { destruct Hd as [->| ->]; [reflexivity|]. destruct (length n) eqn:E; [lia|reflexivity]. }
  rewrite Ed. cbn [rbind]. rewrite Hs, Nat.eqb_refl. cbn [negb]. rewrite Ep. reflexivity.
Qed.

Lemma held_nd_wf n sl I O len l : held_nd n sl I O len l ->
  pd_wf l /\ pd_n l = n /\ pd_segments l = sl /\ pd_in l = I /\ pd_out l = O /\ pd_length l = len.
Proof.
  intros (Hn & Hs & F1 & F2 & HI & HO & dims & mag & draw & u & l0 & w & Hd & E & Hw & ->).
  destruct (new_nd_spec n sl I O len dims mag draw u Hn Hs Hd) as (p & Ep & E'). rewrite E in E'. injection E' as ->.
  cbn [pd_dimensions pd_n pd_segments pd_in pd_out pd_length pd_basis pd_w]. repeat split; cbn; auto; try lia.
  - apply Forall_forall. auto.
  - apply Forall_forall. auto.
  - exists (I * (O * 1) * (prodn sl * prodn n))%nat. split; [exact Hw|]. rewrite Nat.mul_1_r.
    rewrite <- (Nat.mul_1_l (prodn sl * prodn n)) at 1. apply Nat.mul_le_mono_r. nia.
Qed.

(** Every output of the layer is the same number, and x only has to have some number of inputs. *)
Theorem C41_outputs_identical : forall n sl I O len l x B J, held_nd n sl I O len l -> len <> 0 ->
  (1 <= B)%nat -> (1 <= J)%nat -> shape x = [B; J; length n] ->
  exists y, PiecewiseND_forward l x = Ok y /\ shape y = [B; O] /\
    forall b o o', (b < B)%nat -> (o < O)%nat -> (o' < O)%nat -> at_ y [b; o] = at_ y [b; o'].
Proof.
  intros n sl I O len l x B J Hl HL HB HJ Hx. destruct (held_nd_wf n sl I O len l Hl) as (W & En & Es & Ei & Eo & El).
  rewrite <- En in Hx. destruct (piecewise_nd_forward l x B J W HB HJ Hx) as (y & Ey & Sy & Vy).
  rewrite Eo, El in *. exists y. split; [exact Ey|]. split; [exact Sy|]. intros b o o' Hb Ho Ho'. now rewrite !Vy.
Qed.
Print Assumptions C41_outputs_identical.

(** Only the weights of the first link (input 0, output 0) are ever used. *)
Theorem C41_only_first_link_used : forall n sl I O len l l' x B J, held_nd n sl I O len l -> held_nd n sl I O len l' -> len <> 0 ->
  (1 <= B)%nat -> (1 <= J)%nat -> shape x = [B; J; length n] ->
  (forall m, (m < prodn sl * prodn n)%nat -> at_ (pd_w l) [m] = at_ (pd_w l') [m]) ->
  exists y y', PiecewiseND_forward l x = Ok y /\ PiecewiseND_forward l' x = Ok y' /\ teq y y'.
Proof.
  intros n sl I O len l l' x B J Hl Hl' HL HB HJ Hx Eq.
  destruct (held_nd_wf n sl I O len l Hl) as (W & En & Es & Ei & Eo & El).
  destruct (held_nd_wf n sl I O len l' Hl') as (W' & En' & Es' & Ei' & Eo' & El').
  destruct (piecewise_nd_forward l x B J W HB HJ ltac:(now rewrite En)) as (y & Ey & Sy & Vy).
  destruct (piecewise_nd_forward l' x B J W' HB HJ ltac:(now rewrite En')) as (y' & Ey' & Sy' & Vy').
  exists y, y'. split; [exact Ey|]. split; [exact Ey'|]. split; [congruence|].
  intros ix Hix. rewrite Sy in Hix. apply valid2 in Hix. destruct Hix as (b & o & -> & Hb & Ho).
  rewrite Vy, Vy' by congruence. cbv zeta.
  assert (Ax : pd_axis l = pd_axis l') by (unfold pd_axis, pd_segments_at; now rewrite Es, Es', El, El').
  assert (Ce : pd_cell l = pd_cell l') by (unfold pd_cell; now rewrite Es, Es', Ax).
  rewrite En, En', El, El', Ax, Ce. f_equal. apply rsum_ext. intros i Hi. apply nsum_ext. intros j Hj. f_equal.
  rewrite Es, Es'. apply Eq. pose proof (ravel_lt _ _ Hj).
  pose proof (ravel_lt _ _ (pd_cell_valid l' (fun d => at_ x [b; i; d]) W')) as Hc. rewrite Es' in Hc. nia.
Qed.
Print Assumptions C41_only_first_link_used.

(** Within a cell of the grid of segments the output is, up to the sign of C40, the sum over the inputs of
    the polynomial interpolating the weights of that cell (default length). *)
Theorem C41_piecewise_function : forall n sl I O l x B J b o (cell : nat -> list nat) (P : nat -> (nat -> R) -> R), held_nd n sl I O 2 l ->
  (1 <= J)%nat -> shape x = [B; J; length n] -> (b < B)%nat -> (o < O)%nat ->
  (forall i, (i < J)%nat -> length (cell i) = length n /\
     forall d, (d < length n)%nat -> in_segment (nth d sl 0%nat) (nth d (cell i) 0%nat) (at_ x [b; i; d])) ->
  (forall i, (i < J)%nat -> poly_nd n (P i) /\
     forall j, valid n j -> P i (grid n 2 j) = at_ (pd_w l) [ravel sl (cell i) * prodn n + ravel n j]%nat) ->
  exists y, PiecewiseND_forward l x = Ok y /\
    at_ y [b; o] = (-1) ^ total_degree n *
      rsum J (fun i => P i (fun d => seg_local (nth d sl 0%nat) (nth d (cell i) 0%nat) (at_ x [b; i; d]))).
Proof.
  intros n sl I O l x B J b o cell P Hl HJ Hx Hb Ho Hc HP. assert (HB : (1 <= B)%nat) by lia.
  destruct (held_nd_wf n sl I O 2 l Hl) as (W & En & Es & Ei & Eo & El).
  destruct (piecewise_nd_forward l x B J W HB HJ ltac:(now rewrite En)) as (y & Ey & Sy & Vy).
  exists y. split; [exact Ey|]. rewrite Vy by (rewrite ?El, ?Eo; auto; lra). cbv zeta. rewrite En, El.
  assert (D : total_degree n = degree n) by (clear; unfold total_degree; induction n; cbn; congruence). rewrite D. f_equal.
  apply rsum_ext. intros i Hi. destruct (Hc i Hi) as (Lc & Ic). destruct (HP i Hi) as (Pp & Pv).
  destruct W as (H1 & H2 & H3 & F1 & F2 & _). rewrite En, Es in *.
  assert (SA : forall d, pd_segments_at l d = nth d sl 0%nat) by (intros d; rewrite <- Es; apply pd_segments_at_nth; rewrite Es; lia).
  assert (S : forall d, (d < length n)%nat -> seg (pd_axis l d) (at_ x [b; i; d]) = nth d (cell i) 0%nat).
  { intros d Hd. pose proof (Ic d Hd) as In_. apply seg_spec; [exact El| | |]; cbn [pd_axis new_piecewise pw_segments]; rewrite SA; auto.
    - apply Forall_nth1; auto. lia.
    - apply In_. }
  assert (Ecell : pd_cell l (fun d => at_ x [b; i; d]) = cell i).
  { apply (nth_ext _ _ 0%nat 0%nat); [unfold pd_cell; rewrite map_length, seq_length, Es; lia|].
    intros d Hd. assert (d < length n)%nat by (unfold pd_cell in Hd; rewrite map_length, seq_length, Es in Hd; lia).
    rewrite pd_cell_nth by (rewrite Es; lia). now apply S. }
  rewrite Ecell.
  rewrite <- (lag_nd_exact n 2 (P i) _ ltac:(lra) Pp). apply nsum_ext. intros j Hj. rewrite Pv by auto. f_equal.
  unfold lag_nd. apply rprod_ext. intros d Hd. f_equal. rewrite S by auto.
  rewrite x_local_eq by (cbn [pd_axis new_piecewise pw_segments]; rewrite SA; apply Forall_nth1; auto; lia).
  cbn [pd_axis new_piecewise pw_segments pw_length]. rewrite SA, El. unfold seg_local. field.
Qed.
Print Assumptions C41_piecewise_function.

(** A fresh layer is constant: its value is J times the first random constant, with the sign of C40. *)
Theorem C41_fresh_layer_constant : forall n sl I O len dims mag draw u x B J,
  (2 <= length n)%nat -> length sl = length n -> (forall a, In a n -> 1 <= a)%nat -> (forall a, In a sl -> 1 <= a)%nat ->
  (1 <= I)%nat -> (1 <= O)%nat -> dims = None \/ dims = Some (length n) -> len <> 0 ->
  (1 <= B)%nat -> (1 <= J)%nat -> shape x = [B; J; length n] ->
  exists l y, new_PiecewiseND (Ints n) I O (Ints sl) dims len mag true draw u = Ok l /\ PiecewiseND_forward l x = Ok y /\
    forall b o, (b < B)%nat -> (o < O)%nat ->
      at_ y [b; o] = (-1) ^ total_degree n * (INR J * ((2 * draw 0%nat 0%nat - 1) * mag / INR I)).
Proof.
  intros n sl I O len dims mag draw u x B J Hn Hs F1 F2 HI HO Hd HL HB HJ Hx.
  destruct (new_nd_spec n sl I O len dims mag draw u Hn Hs Hd) as (p & Ep & E).
  set (l := mkPwND _ _ _ _ _ _ _ _) in E. exists l.
  assert (Hl : held_nd n sl I O len l).
  { repeat split; auto. exists dims, mag, draw, u, l, (pd_w l). repeat split; auto. }
  destruct (held_nd_wf n sl I O len l Hl) as (W & _).
  destruct (piecewise_nd_forward l x B J W HB HJ Hx) as (y & Ey & Sy & Vy).
  exists y. split; [exact E|]. split; [exact Ey|]. intros b o Hb Ho. rewrite Vy by auto. cbv zeta.
  change (pd_n l) with n. change (pd_segments l) with sl. change (pd_length l) with len.
  assert (D : total_degree n = degree n) by (clear; unfold total_degree; induction n; cbn; congruence). rewrite D. f_equal.
  set (c := (2 * draw 0%nat 0%nat - 1) * mag / INR I).
  rewrite (rsum_ext _ _ (fun _ => c)); [apply rsum_const|]. intros i Hi.
  rewrite (nsum_ext n _ (fun j => c * lag_nd n len j (fun d => x_local (pd_axis l d) (at_ x [b; i; d]) (Z.of_nat (seg (pd_axis l d) (at_ x [b; i; d])))))).
  - rewrite nsum_scal, lag_nd_sum; [ring|auto|]. now apply Forall_forall.
  - intros j Hj. rewrite Rmult_comm. f_equal.
    set (m := (ravel sl _ * prodn n + ravel n j)%nat).
    assert (Hm : (m < prodn sl * prodn n)%nat).
    { pose proof (ravel_lt _ _ Hj). pose proof (ravel_lt _ _ (pd_cell_valid l (fun d => at_ x [b; i; d]) W)) as Hc.
      change (pd_segments l) with sl in Hc. unfold m. nia. }
    unfold l. cbn [pd_w at_ hd]. rewrite Nat.div_small by auto. cbn [flatten at_ shape ravel prodn unravel].
    rewrite Nat.mul_1_r. assert (O <> 0)%nat by lia. cbn [Nat.mul Nat.add]. rewrite Nat.div_0_l, Nat.mod_0_l by lia.
    cbn [nth]. change (0 / 1)%nat with 0%nat. unfold c. field. apply not_0_INR. lia.
Qed.
Print Assumptions C41_fresh_layer_constant.

(** With [constant_random=False] every forward pass fails (unless there is a single output, one segment
    and one node): the weights are three-dimensional and cannot be reshaped. *)
Theorem C41_uniform_initialisation_fails : forall n sl I O dims len mag draw u l x B J D,
  new_PiecewiseND n I O sl dims len mag false draw u = Ok l ->
  (2 <= O)%nat -> (forall a, In a (pd_n l) -> 1 <= a)%nat -> (forall a, In a (pd_segments l) -> 1 <= a)%nat ->
  (1 <= B)%nat -> (1 <= J)%nat -> shape x = [B; J; D] -> exists e, PiecewiseND_forward l x = Err e.
Proof.
  intros n sl I O dims len mag draw u l x B J D E HO Fn Fs HB HJ Hx.
  assert (W : shape (pd_w l) = [I; O; prodn (pd_segments l) * prodn (pd_n l)]%nat /\ pd_out l = O).
  { unfold new_PiecewiseND in E. match type of E with rbind ?m _ = _ => destruct m as [d|]; cbn [rbind] in E; [|discriminate] end.
    destruct (negb _); [discriminate|]. destruct (LagrangeBasisND _ _) as [p|]; cbn [rbind] in E; [|discriminate].
    injection E as <-. split; reflexivity. }
  destruct W as (Sw & Eo).
  assert (P : forall q, (forall a, In a q -> 1 <= a)%nat -> (1 <= prodn q)%nat).
  { induction q as [|a q IH]; intros H; [cbn; lia|]. change (prodn (a :: q)) with (a * prodn q)%nat.
    pose proof (H a (or_introl eq_refl)). pose proof (IH (fun b Hb => H b (or_intror Hb))). nia. }
  pose proof (P _ Fn) as Pn. pose proof (P _ Fs) as Ps.
  unfold PiecewiseND_forward. destruct (pd_which_segment l x) as [sg|e] eqn:Es; cbn [rbind]; [|eauto].
  assert (Ssg : exists D', shape sg = [B; J; D']).
  { unfold pd_which_segment in Es. rewrite Hx in Es. destruct (Nat.ltb D 2); [discriminate|]. destruct (Nat.eqb _ _); [discriminate|].
    destruct (bsize _ _) as [D'|]; [|discriminate]. injection Es as <-. exists D'. reflexivity. }
  destruct Ssg as (D' & Ssg). unfold pd_weight_indices. rewrite Ssg.
  destruct (Nat.ltb _ _); cbn [rbind]; [eauto|]. unfold pd_reshape_weights at 1. cbn [shape]. rewrite Sw, Eo.
  destruct (forallb _ _); cbn [rbind]; [|eauto]. unfold reshape. unfold numel. cbn [shape app].
  match goal with |- context [Nat.eqb ?a ?b] => destruct (Nat.eqb_spec a b) as [Eq|] end; cbn [rbind]; [|eauto].
  exfalso. revert Eq. generalize dependent (prodn (pd_n l)). generalize dependent (prodn (pd_segments l)). intros s Hs k Hk1 Hk.
  cbn [prodn fold_right]. rewrite !Nat.mul_1_r. intros Eq.
  assert (A : (1 <= B * (J * (O * k)))%nat) by (assert (1 <= B * J)%nat by nia; assert (1 <= O * k)%nat by nia; nia).
  assert (A2 : (2 <= O * (s * k))%nat) by (assert (1 <= s * k)%nat by nia; nia).
  replace (B * (J * (O * (k * (O * (s * k))))))%nat with ((B * (J * (O * k))) * (O * (s * k)))%nat in Eq by ring.
  nia.
Qed.
Print Assumptions C41_uniform_initialisation_fails.

(** One-dimensional use fails for every input. *)
Theorem C41_one_dimension_fails : forall l x B J, shape x = [B; J; 1%nat] -> PiecewiseND_forward l x = Err IndexError.
Proof. intros l x B J Hx. unfold PiecewiseND_forward, pd_which_segment. now rewrite Hx. Qed.
Print Assumptions C41_one_dimension_fails.

(** ... and so does an input without batch dimension: unlike PolynomialND the layer does not take it for one sample. *)
Theorem C41_no_batch_fails : forall l x, (length (shape x) < 3)%nat -> PiecewiseND_forward l x = Err IndexError.
Proof.
  intros l x Hx. unfold PiecewiseND_forward, pd_which_segment. destruct (shape x) as [|a [|b [|c r]]]; try reflexivity. cbn [length] in Hx. lia.
Qed.
Print Assumptions C41_no_batch_fails.

(** An integer n without [dimensions] (what the factory passes) is rejected. *)
Theorem C41_integer_n_rejected : forall k I O sl len mag cr draw u,
  new_PiecewiseND (Int k) I O sl None len mag cr draw u = Err ValueError.
Proof. reflexivity. Qed.
Print Assumptions C41_integer_n_rejected.

Example C41_case : exists l, held_nd [3; 2]%nat [2; 4]%nat 2 3 2 l.
Proof.
  destruct (new_nd_spec [3; 2]%nat [2; 4]%nat 2 3 2 None 1 (fun _ _ => 0) (fun _ => 0)) as (p & _ & E); auto.
  eexists. split; [cbn; lia|]. split; [reflexivity|]. split; [cbn; intuition lia|]. split; [cbn; intuition lia|]. split; [lia|]. split; [lia|].
  eexists None, 1, (fun _ _ => 0), (fun _ => 0), _, _. split; [now left|]. split; [exact E|]. split; [reflexivity|]. reflexivity.
Qed.
