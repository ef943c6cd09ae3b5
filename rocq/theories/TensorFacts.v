(** * Index arithmetic for [Tensor.v]. *)
From Coq Require Import String Ascii Reals ZArith List Lia Psatz.
From Verif Require Import Spec Tensor.
Import ListNotations.

Lemma div_add_l a b c : c < b -> (a * b + c) / b = a.
Proof. intros. rewrite Nat.div_add_l by lia. rewrite Nat.div_small; lia. Qed.

Lemma mod_add_l a b c : c < b -> (a * b + c) mod b = c.
Proof. intros. rewrite Nat.add_comm, Nat.mod_add by lia. now apply Nat.mod_small. Qed.

Lemma unravel_ravel s : forall ix, valid s ix -> unravel s (ravel s ix) = ix.
Proof.
  induction s as [|d s IH]; intros [|i ix] H; simpl in *; try tauto.
  destruct H as [Hi H].
  assert (R : ravel s ix < prodn s).
  { clear - H. revert ix H. induction s as [|d s IH]; intros [|i ix] H; simpl in *; try tauto; [lia|].
    destruct H as [Hi H]. specialize (IH ix H). nia. }
  rewrite div_add_l, mod_add_l by auto. f_equal. auto.
Qed.

Lemma ravel_lt s ix : valid s ix -> ravel s ix < prodn s.
Proof.
  revert ix; induction s as [|d s IH]; intros [|i ix] H; simpl in *; try tauto; [lia|].
  destruct H as [Hi H]. specialize (IH ix H). nia.
Qed.

Lemma unravel_valid s : forall m, m < prodn s -> valid s (unravel s m).
Proof.
  induction s as [|d s IH]; intros m H; simpl in *; [exact I|].
  assert (prodn s <> 0) by nia. split.
  - apply Nat.div_lt_upper_bound; auto. lia.
  - apply IH. now apply Nat.mod_upper_bound.
Qed.

Lemma ravel_unravel s : forall m, m < prodn s -> ravel s (unravel s m) = m.
Proof.
  induction s as [|d s IH]; intros m H; simpl in *; [lia|].
  assert (prodn s <> 0) by nia.
  rewrite IH by now apply Nat.mod_upper_bound.
  rewrite Nat.mul_comm. symmetry. now apply Nat.div_mod.
Qed.

Lemma valid_length s : forall ix, valid s ix -> length ix = length s.
Proof. induction s; intros [|i ix] H; simpl in *; try tauto. f_equal. now apply IHs. Qed.

Lemma rbind_ok {A B} (a : A) (k : A -> res B) : rbind (Ok a) k = k a.
Proof. reflexivity. Qed.

Lemma teq_refl {A} (t : tensor A) : teq t t.
Proof. now split. Qed.
Lemma teq_sym {A} (t u : tensor A) : teq t u -> teq u t.
Proof. intros [H1 H2]. split; auto. intros ix Hix. symmetry. apply H2. now rewrite H1. Qed.
Lemma teq_trans {A} (t u v : tensor A) : teq t u -> teq u v -> teq t v.
Proof.
  intros [H1 H2] [H3 H4]. split; [congruence|]. intros ix Hix. rewrite H2 by auto. apply H4.
  now rewrite <- H1.
Qed.

(** Case analysis on valid indices of small rank. *)
Lemma valid1 a ix : valid [a] ix -> exists i, ix = [i] /\ i < a.
Proof. destruct ix as [|i [|]]; simpl; try tauto. intros [H _]. now exists i. Qed.
Lemma valid2 a b ix : valid [a; b] ix -> exists i j, ix = [i; j] /\ i < a /\ j < b.
Proof. destruct ix as [|i [|j [|]]]; simpl; try tauto. intros (H1 & H2 & _). now exists i, j. Qed.
Lemma valid3 a b c ix : valid [a; b; c] ix -> exists i j k, ix = [i; j; k] /\ i < a /\ j < b /\ k < c.
Proof. destruct ix as [|i [|j [|k [|]]]]; simpl; try tauto. intros (H1 & H2 & H3 & _). now exists i, j, k. Qed.

Lemma index_eqb_eq a : forall b, index_eqb a b = true <-> a = b.
Proof.
  induction a as [|x a IH]; intros [|y b]; simpl; try (split; congruence).
  rewrite Bool.andb_true_iff, Nat.eqb_eq, IH. split; [intros [-> ->]; auto|].
  intros E; injection E; auto.
Qed.

Lemma index_eqb_refl a : index_eqb a a = true.
Proof. now apply index_eqb_eq. Qed.

Lemma upd_same {A} (t : tensor A) ix v : at_ (upd t ix v) ix = v.
Proof. simpl. now rewrite index_eqb_refl. Qed.

Lemma upd_other {A} (t : tensor A) ix jx v : jx <> ix -> at_ (upd t ix v) jx = at_ t jx.
Proof.
  intros H. simpl. destruct (index_eqb jx ix) eqn:E; auto. apply index_eqb_eq in E. contradiction.
Qed.

Lemma wrap_nat d i : (0 <= i)%Z -> wrap d i = Z.to_nat i.
Proof. intros H. unfold wrap. destruct (Z.ltb_spec i 0); [lia|auto]. Qed.

(** Broadcasting. *)
Lemma bc_id d i : i < d -> bc d i = i.
Proof. unfold bc. destruct (Nat.eqb_spec d 1); lia. Qed.

Lemma bsize_refl a : bsize a a = Some a.
Proof. unfold bsize. now rewrite Nat.eqb_refl. Qed.

Lemma bsize_r a b : b = a \/ b = 1 -> bsize a b = Some a.
Proof. unfold bsize. intros [-> | ->]; [now rewrite Nat.eqb_refl|]. destruct (Nat.eqb a 1); auto. Qed.
