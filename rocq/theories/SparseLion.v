(** * high_order_layers_torch/sparse_optimizers/sparse_lion.py.  Definitions only. *)
From Coq Require Import Reals ZArith List.
From Verif Require Import Spec Tensor.
Import ListNotations.
Local Open Scope R_scope.

(** [sign] of a number. *)
Definition sgn (x : R) : R := if Rlt_dec 0 x then 1 else if Rlt_dec x 0 then -1 else 0.

(** Indexing with a boolean tensor, [t[mask]], makes a copy holding the selected entries.  The copy is
    kept here at the positions of [t]; only the entries under the mask are meaningful.  Assigning
    [t[mask] = v] writes those entries back. *)
Definition masked_copy (t : tensor R) (mask : tensor bool) : tensor R := mkT (shape t) (at_ t).
Definition masked_put (t : tensor R) (mask : tensor bool) (v : tensor R) : tensor R :=
  mkT (shape t) (fun ix => if at_ mask ix then at_ v ix else at_ t ix).

(** sparse_lion.py 13-35 [update_fn]: new parameter and new moving average.  The result of line 19,
    [p.data[update_indexes].mul_(1 - lr * wd)], is a temporary copy that is thrown away. *)
Definition update_fn (p grad exp_avg : tensor R) (lr wd beta1 beta2 : R) (mask : tensor bool)
  : tensor R * tensor R :=
  let discarded := tmap (fun v => v * (1 - lr * wd)) (masked_copy p mask) in
  let grad_update := masked_copy grad mask in
  let update := tmap sgn (tmap2 (fun e g => e * beta1 + (1 - beta1) * g) (masked_copy exp_avg mask) grad_update) in
  let p := masked_put p mask (tmap2 (fun v u => v + - lr * u) (masked_copy p mask) update) in
  let exp_avg := masked_put exp_avg mask
                   (tmap2 (fun e g => e * beta2 + (1 - beta2) * g) (masked_copy exp_avg mask) grad_update) in
  (p, exp_avg).

(** A parameter with its optimizer state (None before the first step with a gradient). *)
Record param := mkParam { pa_data : tensor R; pa_exp_avg : option (tensor R) }.
(** A parameter group. *)
Record group := mkGroup { g_lr : R; g_beta1 : R; g_beta2 : R; g_wd : R; g_params : list param }.

Definition in_unit (b : R) : bool := if Rle_dec 0 b then if Rle_dec b 1 then true else false else false.

(** sparse_lion.py 39-59 [SparseLion.__init__], parameters given as one list; the triton option is not
    modelled. *)
Definition new_SparseLion (params : list (tensor R)) (lr beta1 beta2 weight_decay : R) : res (list group) :=
  if Rlt_dec 0 lr then
    if (in_unit beta1 && in_unit beta2)%bool
    then Ok [mkGroup lr beta1 beta2 weight_decay (map (fun p => mkParam p None) params)]
    else Err AssertionError
  else Err AssertionError.

(** Lines 69-90, one parameter.  [p.grad is None] skips it. *)
Definition step_param (g : group) (p : param) (grad : option (tensor R)) : param :=
  match grad with
  | None => p
  | Some grad =>
      let exp_avg := match pa_exp_avg p with Some e => e | None => tmap (fun _ => 0) (pa_data p) end in
      let mask := tmap (fun v => if Req_EM_T v 0 then false else true) grad in
      let '(d, e) := update_fn (pa_data p) grad exp_avg (g_lr g) (g_wd g) (g_beta1 g) (g_beta2 g) mask in
      mkParam d (Some e)
  end.

Fixpoint mapi {A B} (f : nat -> A -> B) (i : nat) (l : list A) : list B :=
  match l with [] => [] | a :: l => f i a :: mapi f (S i) l end.

(** Lines 61-92 [SparseLion.step]; [grads i j] is the gradient of parameter j of group i.  The optional
    closure only computes the loss. *)
Definition SparseLion_step (opt : list group) (grads : nat -> nat -> option (tensor R)) : list group :=
  mapi (fun i g => mkGroup (g_lr g) (g_beta1 g) (g_beta2 g) (g_wd g)
                     (mapi (fun j p => step_param g p (grads i j)) 0 (g_params g))) 0 opt.
