(** * Uniform continuity on the cube [[-1,1]^n].  Facts only. *)
From Coq Require Import Reals List Lia Lra Classical_Prop.
From Coquelicot Require Import Coquelicot.
From Verif Require Import Spec.
Local Open Scope R_scope.

Lemma pick_radius (P : R -> Prop) : (exists d, 0 < d /\ P d) -> (forall d e, 0 < e <= d -> P d -> P e) -> {d : posreal | P d}.
Proof.
  intros Hex Hdown.
  assert (H1 : exists x, (fun d => 0 < d <= 1 /\ P d) x).
  { destruct Hex as (d & Hd & Pd). exists (Rmin d 1).
    assert (0 < Rmin d 1) by (apply Rmin_pos; lra). split; [split; [auto|apply Rmin_r]|].
    apply (Hdown d); auto. split; [auto|apply Rmin_l]. }
  assert (H2 : bound (fun d => 0 < d <= 1 /\ P d)).
  { exists 1. intros x [Hx _]. lra. }
  destruct (completeness _ H2 H1) as [m [Hub Hlub]].
  assert (Hm : 0 < m). { destruct H1 as (x & Hx). pose proof (Hub x Hx). lra. }
  assert (Hm2 : 0 < m / 2) by lra.
  exists (mkposreal (m / 2) Hm2). cbn.
  destruct (classic (P (m / 2))) as [|N]; auto. exfalso.
  assert (m <= m / 2); [|lra]. apply Hlub. intros x [Hx Px].
  destruct (Rle_dec x (m / 2)); auto. exfalso. apply N. apply (Hdown x); auto. lra.
Qed.

Fixpoint to_Tn (n : nat) (v : nat -> R) : Compactness.Tn n R :=
  match n with O => tt | S m => (v 0%nat, to_Tn m (fun i => v (S i))) end.
Fixpoint of_Tn (n : nat) : Compactness.Tn n R -> nat -> R :=
  match n with
  | O => fun _ _ => 0
  | S m => fun t i => match i with O => fst t | S j => of_Tn m (snd t) j end
  end.

Lemma bounded_Tn n lo hi v : (forall i, (i < n)%nat -> lo <= v i <= hi) ->
  bounded_n n (to_Tn n (fun _ => lo)) (to_Tn n (fun _ => hi)) (to_Tn n v).
Proof.
  revert v. induction n; intros v H; cbn; auto.
  split; [apply H; lia|]. apply (IHn (fun i => v (S i))). intros. apply H. lia.
Qed.

Lemma close_Tn n d v t : close_n n d (to_Tn n v) t -> forall i, (i < n)%nat -> Rabs (v i - of_Tn n t i) < d.
Proof.
  revert v. induction n; intros v H i Hi; [lia|]. destruct t as [t1 t2]. cbn in H. destruct H as [H1 H2].
  destruct i; cbn; [auto|]. apply (IHn t2 (fun i => v (S i))); auto. lia.
Qed.

Lemma uniformly_continuous_cube n f eps : continuous_vec n f -> 0 < eps ->
  exists d, 0 < d /\ forall x y, (forall i, (i < n)%nat -> -1 <= x i <= 1) ->
    (forall i, (i < n)%nat -> Rabs (y i - x i) < d) -> Rabs (f y - f x) < eps.
Proof.
  intros Hf He.
  assert (G : forall t : Compactness.Tn n R, {d : posreal | forall y, (forall i, (i < n)%nat -> Rabs (y i - of_Tn n t i) < d) -> Rabs (f y - f (of_Tn n t)) < eps / 2}).
  { intros t. apply (pick_radius (fun d => forall y, (forall i, (i < n)%nat -> Rabs (y i - of_Tn n t i) < d) -> Rabs (f y - f (of_Tn n t)) < eps / 2)).
    - destruct (Hf (of_Tn n t) (eps / 2) ltac:(lra)) as (d & Hd & P). eauto.
    - intros d e Hde P y Hy. apply P. intros i Hi. specialize (Hy i Hi). lra. }
  set (delta := fun t => mkposreal (proj1_sig (G t) / 2) ltac:(apply Rdiv_lt_0_compat; [apply cond_pos|lra])).
  destruct (compactness_value n (to_Tn n (fun _ => -1)) (to_Tn n (fun _ => 1)) delta) as (d & Hd).
  exists d. split; [apply cond_pos|]. intros x y Hx Hxy.
  apply NNPP. intros N. apply (Hd (to_Tn n x)); [now apply bounded_Tn|]. intros (t & _ & Hc & Hdt). apply N.
  pose proof (close_Tn n _ x t Hc) as Cx. unfold delta in Hdt, Cx. cbn [pos] in Hdt, Cx.
  destruct (G t) as (r & Pr). cbn [proj1_sig] in *. pose proof (cond_pos r).
  assert (A : Rabs (f x - f (of_Tn n t)) < eps / 2). { apply Pr. intros i Hi. specialize (Cx i Hi). lra. }
  assert (B : Rabs (f y - f (of_Tn n t)) < eps / 2).
  { apply Pr. intros i Hi. specialize (Cx i Hi). specialize (Hxy i Hi).
    replace (y i - of_Tn n t i) with ((y i - x i) + (x i - of_Tn n t i)) by ring.
    eapply Rle_lt_trans; [apply Rabs_triang|]. lra. }
  replace (f y - f x) with ((f y - f (of_Tn n t)) + - (f x - f (of_Tn n t))) by ring.
  eapply Rle_lt_trans; [apply Rabs_triang|]. rewrite Rabs_Ropp. lra.
Qed.

Lemma uniformly_continuous_all n m (f : nat -> (nat -> R) -> R) eps :
  (forall o, (o < m)%nat -> continuous_vec n (f o)) -> 0 < eps ->
  exists d, 0 < d /\ forall o x y, (o < m)%nat -> (forall i, (i < n)%nat -> -1 <= x i <= 1) ->
    (forall i, (i < n)%nat -> Rabs (y i - x i) < d) -> Rabs (f o y - f o x) < eps.
Proof.
  intros Hf He. induction m.
  - exists 1. split; [lra|]. intros; lia.
  - destruct IHm as (d & Hd & P); [intros; apply Hf; lia|].
    destruct (uniformly_continuous_cube n (f m) eps (Hf m ltac:(lia)) He) as (d' & Hd' & P').
    exists (Rmin d d'). split; [now apply Rmin_pos|]. intros o x y Ho Hx Hy.
    destruct (PeanoNat.Nat.eq_dec o m) as [->|N].
    + apply P'; auto. intros i Hi. eapply Rlt_le_trans; [apply Hy; auto|apply Rmin_r].
    + apply P; auto; [lia|]. intros i Hi. eapply Rlt_le_trans; [apply Hy; auto|apply Rmin_l].
Qed.
