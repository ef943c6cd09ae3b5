(** * Vocabulary for the properties of attention modules.  Definitions only. *)
From Coq Require Import Reals List.
From Verif Require Import Spec Tensor Attention.
Import ListNotations.
Local Open Scope R_scope.

(** [a] is the distribution over the positions [j < n] that [allowed] admits with weights proportional to [exp (s j)]. *)
Record attends (n : nat) (allowed : nat -> bool) (s a : nat -> R) : Prop := mkAttends {
  at_nonneg : forall j, (j < n)%nat -> 0 <= a j;
  at_sum : rsum n a = 1;
  at_masked : forall j, (j < n)%nat -> allowed j = false -> a j = 0;
  at_ratio : forall i j, (i < n)%nat -> (j < n)%nat -> allowed i = true -> allowed j = true -> a i * exp (s j) = a j * exp (s i) }.

(** Row [s] of an affine map with weight matrix [w] of [M] columns, applied to a vector. *)
Definition affine (M : nat) (w bias : tensor R) (x : nat -> R) (o : nat) : R :=
  rsum M (fun k => x k * at_ w [o; k]) + at_ bias [o].

(** Is position [ix] masked? *)
Definition masked (mask : option (tensor bool)) (ix : index) : bool :=
  match mask with Some m => at_ m ix | None => false end.

(** [a] is the distribution over the positions [j < n] proportional to the positive weights [w j]. *)
Record proportional (n : nat) (w a : nat -> R) : Prop := mkProportional {
  pr_nonneg : forall j, (j < n)%nat -> 0 <= a j;
  pr_sum : rsum n a = 1;
  pr_ratio : forall i j, (i < n)%nat -> (j < n)%nat -> a i * w j = a j * w i }.

(** Convolution with a kernel of size 3 of a sequence of length [T], as if it were surrounded by zeros. *)
Definition around (T : nat) (w x : nat -> R) (t : nat) : R :=
  (if Nat.eqb t 0 then 0 else w 0%nat * x (t - 1)%nat) + w 1%nat * x t + (if Nat.ltb (t + 1) T then w 2%nat * x (t + 1)%nat else 0).
