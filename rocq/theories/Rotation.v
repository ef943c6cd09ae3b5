(** * layers.py 298-354 [fixed_rotation_layer] and utils.py 82-142 [positions_from_mesh].
    Definitions only; exact reals. *)
From Coq Require Import Reals ZArith List.
From Verif Require Import Spec Tensor Normalization.
Import ListNotations.
Local Open Scope R_scope.

(** ** fixed_rotation_layer *)

(** [l[i] += v] on a python list of numbers (i in range). *)
Fixpoint list_add (i : nat) (v : R) (l : list R) : list R :=
  match l, i with
  | [], _ => []
  | a :: l, O => (a + v) :: l
  | a :: l, S i => a :: list_add i v l
  end.
(** [l[i] = v] *)
Fixpoint list_set (i : nat) (v : R) (l : list R) : list R :=
  match l, i with
  | [], _ => []
  | _ :: l, O => v :: l
  | a :: l, S i => a :: list_set i v l
  end.

(** Lines 326-344: the two rows of one rotation. *)
Definition rotation_pair (n : nat) (rotations : Z) (normalize : bool) (i j r : nat) : list (list R) :=
  let theta := PI / 2 * (INR r / IZR rotations) in
  let rot_x := cos theta in
  let rot_y := sin theta in
  let norm_val := if normalize then Rabs rot_x + Rabs rot_y else 1 in
  let temp := list_add j (rot_y / norm_val) (list_add i (rot_x / norm_val) (repeat 0 n)) in
  let other := list_add j (- rot_x / norm_val) (list_add i (rot_y / norm_val) (repeat 0 n)) in
  [temp; other].

(** Lines 318-344: the list [combos]. *)
Definition rotation_combos (n : nat) (rotations : Z) (normalize : bool) : list (list R) :=
  flat_map (fun i =>
    list_set i 1 (repeat 0 n) ::
    flat_map (fun j =>
      flat_map (fun r => rotation_pair n rotations normalize i j r)
        (seq 1 (Z.to_nat rotations - 1)))
      (seq (i + 1) (n - (i + 1))))
    (seq 0 n).

(** A nested list as a tensor, [torch.tensor(combos)] (all rows have length [n]). *)
Definition tensor_of_rows (n : nat) (rows : list (list R)) : tensor R :=
  mkT [length rows; n] (fun ix => nth (nth 1 ix 0%nat) (nth (nth 0 ix 0%nat) rows []) 0).

(** Lines 298-354: the weight of the returned linear layer and the announced width.  n >= 1 (for
    n = 0 the weight tensor has one dimension only). *)
Definition fixed_rotation_layer (n : nat) (rotations : Z) (normalize : bool) : res (tensor R * Z) :=
  if Z.ltb rotations 1 then Err ValueError
  else Ok (tensor_of_rows n (rotation_combos n rotations normalize),
           (Z.of_nat n + Z.of_nat n * (Z.of_nat n - 1) * (rotations - 1))%Z).

(** [torch.nn.Linear] without bias on a batch: [x @ weight.T]. *)
Definition linear_forward (weight x : tensor R) : res (tensor R) :=
  match shape x, shape weight with
  | [B; i], [o; i'] =>
      if Nat.eqb i i' then Ok (mkT [B; o] (fun ix => rsum i (fun k => at_ x [nth 0 ix 0%nat; k] * at_ weight [nth 1 ix 0%nat; k])))
      else Err RuntimeError
  | _, _ => Err RuntimeError
  end.

(** ** positions_from_mesh *)

(** [torch.max(t)], [torch.min(t)] over all entries; RuntimeError for an empty tensor is raised by the
    caller below. *)
Definition full_max (t : tensor R) : R := rmax (numel t) (fun m => at_ t (unravel (shape t) m)).
Definition full_min (t : tensor R) : R := rmin (numel t) (fun m => at_ t (unravel (shape t) m)).

(** Lines 117-137 on one of r1, r2: rescale to a span of max_dim around 0, then to [-1,1]. *)
Definition rescale_mesh (max_dim : R) (normalize : bool) (r : tensor R) : tensor R :=
  let r_max := full_max r in
  let r_min := full_min r in
  let dr := r_max - r_min in
  let r := tmap (fun v => ((v - r_min) / dr - 1/2) * max_dim) r in
  if normalize then tmap (fun v => 2 * (v + max_dim / 2) / max_dim - 1) r else r.

(** Lines 82-142.  max_dim = 1 makes [scale] divide by zero (python ints); max_dim = 0 makes
    torch.max fail on an empty tensor (unless rotations = 0).  A span [dr] of zero gives nan in torch,
    some real here. *)
Definition positions_from_mesh (width height rotations : nat) (normalize : bool) : res (list (tensor R)) :=
  let max_dim := Nat.max width height in
  if Nat.eqb max_dim 1 then Err ZeroDivisionError
  else if (Nat.eqb (width * height) 0 && negb (Nat.eqb rotations 0))%bool then Err RuntimeError
  else
    let scale := INR max_dim / (INR max_dim - 1) in
    let xv := mkT [width; height] (fun ix => scale * INR (nth 0 ix 0%nat)) in
    let yv := mkT [width; height] (fun ix => scale * INR (nth 1 ix 0%nat)) in
    Ok (flat_map (fun i =>
          let theta := PI / 2 * (INR i / INR rotations) in
          let rot_x := cos theta in
          let rot_y := sin theta in
          let r1 := tmap2 (fun x y => rot_x * x + rot_y * y) xv yv in
          let r2 := tmap2 (fun x y => rot_x * x - rot_y * y) xv yv in
          [rescale_mesh (INR max_dim) normalize r1; rescale_mesh (INR max_dim) normalize r2])
        (seq 0 rotations)).
