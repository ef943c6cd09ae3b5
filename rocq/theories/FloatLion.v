(** * sparse_lion.py in floating point.  Definitions only.

    The functions of SparseLion.v with every arithmetic operation on tensors followed by a rounding [rnd]; python's own
    arithmetic on the settings is in double precision.  [Tensor.add] with [alpha] may round the product by itself or
    not, depending on the machine and on the position of the entry, so a step is a relation that allows both.
    Overflow, infinities and NaN are not modelled. *)
From Coq Require Import Reals ZArith List.
From Verif Require Import Spec Tensor Utils Normalization FloatUtils SparseLion.
Import ListNotations.
Local Open Scope R_scope.

Section Rounded.
Variable rnd : R -> R.

(** [a.add(b, alpha=c)] for one entry; the python scalar [c] is converted to the tensor's format first. *)
Definition fl_add_alpha (a c b r : R) : Prop := r = rnd (a + rnd c * b) \/ r = rnd (a + rnd (rnd c * b)).

(** sparse_lion.py 13-35 [update_fn], one entry under the mask: parameter [p], gradient [g], moving average [e] before and
    [p'], [e'] after.  Line 19 is a temporary that is thrown away. *)
Definition fl_update_entry (lr beta1 beta2 p g e p' e' : R) : Prop :=
  exists d, fl_add_alpha (rnd (e * rnd beta1)) (float64 (1 - beta1)) g d /\
    fl_add_alpha p (- lr) (sgn d) p' /\
    fl_add_alpha (rnd (e * rnd beta2)) (float64 (1 - beta2)) g e'.

(** Lines 69-90, one parameter: entries whose gradient is 0 are not written. *)
Definition fl_step_param (s : group) (p : param) (grad : option (tensor R)) (p' : param) : Prop :=
  match grad with
  | None => p' = p
  | Some grad =>
      let exp_avg := match pa_exp_avg p with Some e => e | None => tmap (fun _ => 0) (pa_data p) end in
      shape (pa_data p') = shape (pa_data p) /\
      exists e', pa_exp_avg p' = Some e' /\ shape e' = shape exp_avg /\
        forall ix, if Req_EM_T (at_ grad ix) 0 then at_ (pa_data p') ix = at_ (pa_data p) ix /\ at_ e' ix = at_ exp_avg ix
          else fl_update_entry (g_lr s) (g_beta1 s) (g_beta2 s) (at_ (pa_data p) ix) (at_ grad ix) (at_ exp_avg ix) (at_ (pa_data p') ix) (at_ e' ix)
  end.

(** Lines 61-92 [SparseLion.step]. *)
Definition fl_SparseLion_step (opt : list group) (grads : nat -> nat -> option (tensor R)) (opt' : list group) : Prop :=
  length opt' = length opt /\
  forall i g, nth_error opt i = Some g -> exists ps, length ps = length (g_params g) /\
    nth_error opt' i = Some (mkGroup (g_lr g) (g_beta1 g) (g_beta2 g) (g_wd g) ps) /\
    forall j p, nth_error (g_params g) j = Some p -> exists p', nth_error ps j = Some p' /\ fl_step_param g p (grads i j) p'.
End Rounded.
