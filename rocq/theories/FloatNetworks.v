(** * HighOrderMLP in floating point.  Definitions only.

    [forward] of a [HighOrderMLP] whose [nn.Sequential] holds piecewise layers only (no normalization, non-linearity or
    dropout), with the layers of FloatLayers.v.  All layers of the networks considered have the same number [n] of nodes,
    hence the same stored nodes [X]. *)
From Coq Require Import Reals List.
From Verif Require Import Spec Tensor Utils PolynomialLayers Layers Networks FloatUtils FloatLayers.
Import ListNotations.
Local Open Scope R_scope.

(** networks.py 285: [nn.Sequential] hands the output of each module to the next. *)
Inductive fl_run (rnd : R -> R) (h : heap) (X : tensor R) : list nat -> tensor R -> tensor R -> Prop :=
| fl_run_end x : fl_run rnd h X [] x x
| fl_run_layer k L l x y z : get h k = OPiecewise l -> fl_piecewise_forward rnd l X x y -> fl_run rnd h X L y z -> fl_run rnd h X (k :: L) x z.

(** networks.py 287-288 [HighOrderMLP.forward]. *)
Definition fl_mlp_forward (rnd : R -> R) (h : heap) (net : nat) (X x y : tensor R) : Prop :=
  exists dl k1 k2 q L, get h net = OMLP dl k1 k2 q /\ get h q = OSequential L /\ fl_run rnd h X L x y.
