(** * Tensors, exceptions and the torch operations the code uses.

    Definitions only (no proofs).  A tensor is a shape together with a map from multi-indices to
    entries; entries at indices outside the shape are not observable and no operation below reads
    them.  Memory layout is row-major: [reshape]/[view]/[flatten] go through [ravel]/[unravel]. *)
From Coq Require Import String Ascii Reals ZArith List Lia.
From Verif Require Import Spec.
Import ListNotations.

(** ** Exceptions *)

(** Python exception classes raised by the modelled code. *)
Inductive exn :=
| ValueError | TypeError | IndexError | AttributeError | RuntimeError
| ZeroDivisionError | UnboundLocalError | RecursionError | KeyError | AssertionError.

Inductive res (A : Type) := Ok (a : A) | Err (e : exn).
Arguments Ok {A} a. Arguments Err {A} e.

Definition rbind {A B} (m : res A) (k : A -> res B) : res B :=
  match m with Ok a => k a | Err e => Err e end.
Notation "x <- m ;; k" := (rbind m (fun x => k)) (at level 61, m at next level, right associativity).

Definition rmap {A B} (f : A -> B) (m : res A) : res B := a <- m ;; Ok (f a).

(** [for i in range(n): s = body(i, s)] with early exit on an exception. *)
Fixpoint rfor {A} (n : nat) (body : nat -> A -> res A) (s : A) : res A :=
  match n with O => Ok s | Datatypes.S m => s' <- rfor m body s ;; body m s' end.

(** Outcome of code that mutates an object: the final content, and the exception that stopped it,
    if any. *)
Definition mut (A : Type) : Type := (A * option exn)%type.

(** [for i in range(n): body] over mutable state; an exception stops the loop and leaves the state
    reached so far. *)
Fixpoint mfor {A} (n : nat) (body : nat -> A -> mut A) (s : A) : mut A :=
  match n with
  | O => (s, None)
  | Datatypes.S m =>
      match mfor m body s with
      | (s', None) => body m s'
      | (s', Some e) => (s', Some e)
      end
  end.

(** ** Tensors *)

Definition index := list nat.

Record tensor (A : Type) := mkT { shape : list nat; at_ : index -> A }.
Arguments mkT {A}. Arguments shape {A}. Arguments at_ {A}.

Fixpoint prodn (l : list nat) : nat := match l with [] => 1 | a :: l => a * prodn l end.

Definition numel {A} (t : tensor A) : nat := prodn (shape t).

Fixpoint valid (s : list nat) (ix : index) : Prop :=
  match s, ix with
  | [], [] => True
  | d :: s, i :: ix => i < d /\ valid s ix
  | _, _ => False
  end.

(** Observable equality. *)
Definition teq {A} (t u : tensor A) : Prop :=
  shape t = shape u /\ forall ix, valid (shape t) ix -> at_ t ix = at_ u ix.

(** Row-major linear index and its inverse. *)
Fixpoint ravel (s : list nat) (ix : index) : nat :=
  match s, ix with
  | d :: s, i :: ix => i * prodn s + ravel s ix
  | _, _ => 0
  end.

Fixpoint unravel (s : list nat) (m : nat) : index :=
  match s with
  | [] => []
  | d :: s => (m / prodn s) :: unravel s (m mod prodn s)
  end.

(** Elementwise map; two-argument version for tensors of the same shape. *)
Definition tmap {A B} (f : A -> B) (t : tensor A) : tensor B :=
  mkT (shape t) (fun ix => f (at_ t ix)).
Definition tmap2 {A B C} (f : A -> B -> C) (t : tensor A) (u : tensor B) : tensor C :=
  mkT (shape t) (fun ix => f (at_ t ix) (at_ u ix)).

(** [t.reshape(s)] / [t.view(s)]: same entries in row-major order; RuntimeError if the number of
    entries differs.  (Strides and contiguity are not modelled.) *)
Definition reshape {A} (s : list nat) (t : tensor A) : res (tensor A) :=
  if Nat.eqb (prodn s) (numel t)
  then Ok (mkT s (fun ix => at_ t (unravel (shape t) (ravel s ix))))
  else Err RuntimeError.

(** [t.view(s1.., -1, s2..)]: the missing dimension is inferred. *)
Definition view_infer {A} (s1 s2 : list nat) (t : tensor A) : res (tensor A) :=
  let p := prodn s1 * prodn s2 in
  if Nat.eqb p 0 then Err RuntimeError
  else if Nat.eqb (numel t mod p) 0 then reshape (s1 ++ (numel t / p) :: s2) t
  else Err RuntimeError.

(** [t.flatten()] *)
Definition flatten {A} (t : tensor A) : tensor A :=
  mkT [numel t] (fun ix => at_ t (unravel (shape t) (ravel [numel t] ix))).

(** Position of [d] in [p]. *)
Fixpoint index_of (d : nat) (p : list nat) : nat :=
  match p with [] => 0 | a :: p => if Nat.eqb a d then 0 else Datatypes.S (index_of d p) end.

(** [t.permute(p)]: dimension [k] of the result is dimension [p[k]] of [t]. *)
Definition permute {A} (p : list nat) (t : tensor A) : tensor A :=
  mkT (map (fun d => nth d (shape t) 0) p)
      (fun ix => at_ t (map (fun d => nth (index_of d p) ix 0) (seq 0 (length (shape t))))).

(** [torch.stack([f 0, .., f (n-1)])] of [n] tensors of shape [s]: a new leading dimension. *)
Definition stack {A} (n : nat) (s : list nat) (f : nat -> tensor A) : tensor A :=
  mkT (n :: s) (fun ix => match ix with j :: ix => at_ (f j) ix | [] => at_ (f 0) [] end).

(** [torch.arange(n)] *)
Definition arange (n : nat) : tensor Z := mkT [n] (fun ix => Z.of_nat (hd 0 ix)).

(** Boolean validity check of python/torch integer indices: [-d <= i < d]. *)
Definition index_ok (d : nat) (i : Z) : bool :=
  ((- Z.of_nat d <=? i) && (i <? Z.of_nat d))%Z%bool.
(** Negative indices count from the end. *)
Definition wrap (d : nat) (i : Z) : nat :=
  Z.to_nat (if (i <? 0)%Z then i + Z.of_nat d else i).

(** [t[:, I, J]] for a 3-d tensor and two 1-d integer tensors of the same length. *)
Definition index_rows {A} (t : tensor A) (I J : tensor Z) : res (tensor A) :=
  match shape t, shape I, shape J with
  | [d0; d1; d2], [k], [k'] =>
      if Nat.eqb k k' then
        if forallb (fun m => index_ok d1 (at_ I [m]) && index_ok d2 (at_ J [m]))%bool (seq 0 k)
        then Ok (mkT [d0; k] (fun ix => match ix with
                  | [a; m] => at_ t [a; wrap d1 (at_ I [m]); wrap d2 (at_ J [m])]
                  | _ => at_ t [] end))
        else Err IndexError
      else Err IndexError
  | _, _, _ => Err IndexError
  end.

(** In-place assignment of one entry. *)
Fixpoint index_eqb (a b : index) : bool :=
  match a, b with
  | [], [] => true
  | x :: a, y :: b => (Nat.eqb x y && index_eqb a b)%bool
  | _, _ => false
  end.
Definition upd {A} (t : tensor A) (ix : index) (v : A) : tensor A :=
  mkT (shape t) (fun jx => if index_eqb jx ix then v else at_ t jx).

(** ** einsum *)

(** Label environments.  Labels are characters, as in the torch equation string. *)
Definition env := list (ascii * nat).
Fixpoint lookup (e : env) (c : ascii) : nat :=
  match e with [] => 0 | (k, v) :: e => if Ascii.eqb k c then v else lookup e c end.
Fixpoint has (e : env) (c : ascii) : bool :=
  match e with [] => false | (k, v) :: e => (Ascii.eqb k c || has e c)%bool end.

(** Size of a dimension shared by two operands: equal, or one of them is 1 and is broadcast. *)
Definition bsize (a b : nat) : option nat :=
  if Nat.eqb a b then Some a else if Nat.eqb b 1 then Some a else if Nat.eqb a 1 then Some b else None.

(** Index used in a dimension of size [d] when the broadcast index is [i]. *)
Definition bc (d i : nat) : nat := if Nat.eqb d 1 then 0 else i.

(** [e] with the size of label [c] replaced. *)
Fixpoint set_size (e : env) (c : ascii) (d : nat) : env :=
  match e with
  | [] => []
  | (k, v) :: e => if Ascii.eqb k c then (k, d) :: e else (k, v) :: set_size e c d
  end.

(** Add the dimensions of one operand to the size table; None if the sizes of a label cannot be
    broadcast or the number of labels is not the rank. *)
Fixpoint add_dims (ls : list ascii) (s : list nat) (e : env) : option env :=
  match ls, s with
  | [], [] => Some e
  | c :: ls, d :: s =>
      if has e c then
        match bsize (lookup e c) d with
        | Some d' => add_dims ls s (set_size e c d')
        | None => None
        end
      else add_dims ls s (e ++ [(c, d)])
  | _, _ => None
  end.

(** Index of one operand: a dimension of size 1 is always read at 0. *)
Fixpoint operand_index (e : env) (ls : list ascii) (s : list nat) : index :=
  match ls, s with
  | c :: ls, d :: s => bc d (lookup e c) :: operand_index e ls s
  | _, _ => []
  end.

(** Sum over all values of the labels in [ls] (sizes in [dims]). *)
Fixpoint sum_labels (ls : list ascii) (dims : env) (e : env) (f : env -> R) : R :=
  match ls with
  | [] => f e
  | c :: ls => rsum (lookup dims c) (fun v => sum_labels ls dims ((c, v) :: e) f)
  end.

(** [torch.einsum("la,lb->lo", A, B)], with torch's broadcasting of size-1 dimensions.  Labels
    repeated within one operand do not occur in the code. *)
Definition einsum2 (la lb lo : string) (A B : tensor R) : res (tensor R) :=
  let la := list_ascii_of_string la in
  let lb := list_ascii_of_string lb in
  let lo := list_ascii_of_string lo in
  match add_dims la (shape A) [] with
  | None => Err RuntimeError
  | Some e1 =>
    match add_dims lb (shape B) e1 with
    | None => Err RuntimeError
    | Some dims =>
        let summed := filter (fun c => negb (existsb (Ascii.eqb c) lo)) (map fst dims) in
        Ok (mkT (map (lookup dims) lo)
             (fun ix => sum_labels summed dims (combine lo ix)
                (fun e => at_ A (operand_index e la (shape A)) * at_ B (operand_index e lb (shape B)))%R))
    end
  end.

(** Reductions over the last dimension of a tensor. *)
Definition sum_last (t : tensor R) : tensor R :=
  mkT (removelast (shape t))
      (fun ix => rsum (last (shape t) 0) (fun k => at_ t (ix ++ [k]))).
Definition prod_last (t : tensor R) : tensor R :=
  mkT (removelast (shape t))
      (fun ix => rprod (last (shape t) 0) (fun k => at_ t (ix ++ [k]))).
