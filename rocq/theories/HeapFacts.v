(** * Lemmas on heaps of module objects. *)
From Coq Require Import String Reals ZArith List Lia Bool Arith.
From Verif Require Import Spec Tensor PolynomialLayers Refine ProductLayer LagrangeND Layers Networks ObserveNet TensorFacts.
Import ListNotations.
Local Open Scope R_scope.
Local Open Scope nat_scope.

Lemma children_refs o : incl (children o) (refs o).
Proof. destruct o as [| | | | | | | |? ? ? [nm|]| | | |]; cbn; intros x Hx; try exact Hx; try destruct Hx as [<-|[]]; try destruct Hx. apply in_or_app. right. now left. Qed.

(** ** get and set_obj *)
Lemma get_app_l h h' i : i < length h -> get (h ++ h') i = get h i.
Proof. intros H. unfold get. now rewrite app_nth1. Qed.
Lemma get_app_r h h' i : get (h ++ h') (length h + i) = get h' i.
Proof. unfold get. rewrite app_nth2 by lia. f_equal. lia. Qed.
Lemma get_last h o : get (h ++ [o]) (length h) = o.
Proof. unfold get. rewrite app_nth2 by lia. now rewrite Nat.sub_diag. Qed.
Lemma get_out h i : length h <= i -> get h i = null.
Proof. intros H. unfold get. now rewrite nth_overflow. Qed.

Lemma set_obj_length h i o : i < length h -> length (set_obj h i o) = length h.
Proof. intros H. unfold set_obj. rewrite app_length, firstn_length. cbn [length]. rewrite skipn_length. lia. Qed.
Lemma get_set_same h i o : i < length h -> get (set_obj h i o) i = o.
Proof.
  intros H. unfold get, set_obj. rewrite app_nth2; rewrite firstn_length_le by lia; [|lia]. now rewrite Nat.sub_diag.
Qed.
Lemma get_set_other h i j o : i < length h -> i <> j -> get (set_obj h i o) j = get h j.
Proof.
  intros H Hne. unfold get, set_obj. destruct (Nat.lt_ge_cases j i) as [L|L].
  - rewrite app_nth1 by (rewrite firstn_length_le; lia).
    rewrite <- (firstn_skipn i h) at 2. rewrite app_nth1 by (rewrite firstn_length_le; lia). reflexivity.
  - rewrite app_nth2; rewrite firstn_length_le by lia; [|lia].
    destruct (j - i) as [|m] eqn:E; [lia|]. cbn [nth].
    rewrite <- (firstn_skipn (i + 1) h) at 2. rewrite app_nth2; rewrite firstn_length_le by lia; [|lia]. f_equal. lia.
Qed.

(** ** call *)
Lemma calls_app h o : calls (h ++ [o]) =
  calls h ++ [obj_forward (fun j => nth j (calls h) (fun _ => Err RuntimeError)) o].
Proof. unfold calls. now rewrite fold_left_app. Qed.
Lemma calls_length h : length (calls h) = length h.
Proof. induction h as [|o h IH] using rev_ind; [reflexivity|]. rewrite calls_app, !app_length, IH. reflexivity. Qed.
Lemma calls_prefix h h' : exists r, calls (h ++ h') = calls h ++ r.
Proof.
  induction h' as [|o h' IH] using rev_ind; [exists []; now rewrite !app_nil_r|].
  destruct IH as (r & E). rewrite app_assoc, calls_app, E. rewrite <- app_assoc. eauto.
Qed.
Lemma call_app h h' i : i < length h -> call (h ++ h') i = call h i.
Proof.
  intros H. unfold call. destruct (calls_prefix h h') as (r & ->). rewrite app_nth1 by now rewrite calls_length. reflexivity.
Qed.

Lemma all_outputs_ext c c' fs x : (forall j, In j fs -> c j = c' j) -> all_outputs c fs x = all_outputs c' fs x.
Proof.
  induction fs as [|f fs IH]; intros H; [reflexivity|]. cbn. rewrite (H f) by now left.
  rewrite IH; [reflexivity|]. intros j Hj. apply H. now right.
Qed.
Lemma run_ext c c' fs x : (forall j, In j fs -> c j = c' j) -> run c fs x = run c' fs x.
Proof.
  revert x. induction fs as [|f fs IH]; intros x H; [reflexivity|]. cbn. rewrite (H f) by now left.
  destruct (c' f x); cbn; [|reflexivity]. apply IH. intros j Hj. apply H. now right.
Qed.
Lemma obj_forward_ext c c' o x : (forall j, In j (refs o) -> c j = c' j) -> obj_forward c o x = obj_forward c' o x.
Proof.
  intros H. destruct o; cbn in *; try reflexivity.
  - now rewrite H by now left.
  - now rewrite (all_outputs_ext c c').
  - rewrite (all_outputs_ext c c') by (intros j Hj; apply H, in_or_app; now left).
    destruct (all_outputs c' layers x); cbn; [|reflexivity]. destruct (product_outputs a); cbn; [|reflexivity].
    destruct normalization; [|reflexivity]. rewrite H; [reflexivity|]. apply in_or_app. right. now left.
  - now apply run_ext.
  - now rewrite H by tauto.
  - now rewrite H by tauto.
Qed.

Lemma call_unfold h i x : wf_heap h -> i < length h -> call h i x = obj_forward (call h) (get h i) x.
Proof.
  intros W H. rewrite <- (firstn_skipn (i + 1) h) at 1. rewrite call_app by (rewrite firstn_length_le; lia).
  assert (Es : firstn (i + 1) h = firstn i h ++ [get h i]).
  { clear W x. revert i H. induction h as [|o h IH]; intros i H; [cbn in H; lia|]. destruct i; [destruct h; reflexivity|].
    cbn in H. cbn [firstn Nat.add app]. f_equal. rewrite IH by lia. reflexivity. }
  rewrite Es. unfold call at 1. rewrite calls_app.
  assert (L : length (calls (firstn i h)) = i) by (rewrite calls_length, firstn_length_le; lia).
  rewrite app_nth2; rewrite L; [|lia]. rewrite Nat.sub_diag. cbn [nth]. apply obj_forward_ext.
  intros j Hj. pose proof (W i H j Hj) as Hlt. 
  change (nth j (calls (firstn i h)) (fun _ => Err RuntimeError) = nth j (calls h) (fun _ => Err RuntimeError)).
  replace (calls h) with (calls (firstn i h ++ skipn i h)) by now rewrite firstn_skipn.
  destruct (calls_prefix (firstn i h) (skipn i h)) as (r & ->). rewrite app_nth1 by lia. reflexivity.
Qed.

(** ** wf_heap *)
Lemma wf_nil : wf_heap [].
Proof. intros i H. cbn in H. lia. Qed.
Lemma wf_snoc h o : wf_heap h -> (forall j, In j (refs o) -> j < length h) -> wf_heap (h ++ [o]).
Proof.
  intros W H i Hi j Hj. rewrite app_length in Hi. cbn in Hi. destruct (Nat.eq_dec i (length h)) as [->|Hne].
  - rewrite get_last in Hj. now apply H.
  - rewrite get_app_l in Hj by lia. apply (W i); [lia|exact Hj].
Qed.
Lemma wf_same_refs h h' : length h' = length h -> (forall i, i < length h -> refs (get h' i) = refs (get h i)) -> wf_heap h -> wf_heap h'.
Proof. intros L E W i Hi j Hj. rewrite E in Hj by lia. apply W; [lia|exact Hj]. Qed.
Lemma wf_set h i o : wf_heap h -> i < length h -> refs o = refs (get h i) -> wf_heap (set_obj h i o).
Proof.
  intros W Hi E. apply (wf_same_refs h); [now apply set_obj_length| |exact W].
  intros k Hk. destruct (Nat.eq_dec i k) as [<-|Hne]; [now rewrite get_set_same|now rewrite get_set_other].
Qed.

(** ** modules *)
Lemma walks_app h o : walks (h ++ [o]) = walks h ++ [walk_obj (walks h) (length (walks h)) o].
Proof. unfold walks. now rewrite fold_left_app. Qed.
Lemma walks_length h : length (walks h) = length h.
Proof. induction h as [|o h IH] using rev_ind; [reflexivity|]. rewrite walks_app, !app_length, IH. reflexivity. Qed.
Lemma walks_prefix h h' : exists r, walks (h ++ h') = walks h ++ r.
Proof.
  induction h' as [|o h' IH] using rev_ind; [exists []; now rewrite !app_nil_r|].
  destruct IH as (r & E). rewrite app_assoc, walks_app, E. rewrite <- app_assoc. eauto.
Qed.
Definition walk (h : heap) (i : nat) (memo : list nat) : list nat := nth i (walks h) (fun m => m) memo.

Lemma fold_left_ext {A B} (f g : A -> B -> A) l a : (forall a b, In b l -> f a b = g a b) -> fold_left f l a = fold_left g l a.
Proof.
  revert a. induction l as [|b l IH]; intros a H; [reflexivity|]. cbn. rewrite H by now left. apply IH. intros a' b' Hb. apply H. now right.
Qed.

Lemma walk_unfold h i memo : wf_heap h -> i < length h ->
  walk h i memo = if mem i memo then memo else fold_left (fun m c => walk h c m) (children (get h i)) (memo ++ [i]).
Proof.
  intros W H. unfold walk at 1. rewrite <- (firstn_skipn (i + 1) h) at 1.
  assert (Es : firstn (i + 1) h = firstn i h ++ [get h i]).
  { clear W memo. revert i H. induction h as [|o h IH]; intros i H; [cbn in H; lia|]. destruct i; [destruct h; reflexivity|].
    cbn in H. cbn [firstn Nat.add app]. f_equal. rewrite IH by lia. reflexivity. }
  destruct (walks_prefix (firstn (i + 1) h) (skipn (i + 1) h)) as (r & ->).
  rewrite app_nth1 by (rewrite walks_length, firstn_length_le; lia).
  rewrite Es, walks_app.
  assert (L : length (walks (firstn i h)) = i) by (rewrite walks_length, firstn_length_le; lia).
  rewrite app_nth2; rewrite L; [|lia]. rewrite Nat.sub_diag. cbn [nth]. unfold walk_obj.
  destruct (mem i memo); [reflexivity|]. apply fold_left_ext. intros m c Hc.
  pose proof (W i H c (children_refs _ c Hc)) as Hlt. unfold walk.
  replace (walks h) with (walks (firstn i h ++ skipn i h)) by now rewrite firstn_skipn.
  destruct (walks_prefix (firstn i h) (skipn i h)) as (r' & ->). rewrite app_nth1 by lia. reflexivity.
Qed.

(** Objects without children. *)
Lemma walk_leaf h i memo : wf_heap h -> i < length h -> children (get h i) = [] ->
  walk h i memo = if mem i memo then memo else memo ++ [i].
Proof. intros W H E. rewrite walk_unfold, E by auto. reflexivity. Qed.

Lemma mem_In i l : mem i l = true <-> In i l.
Proof.
  unfold mem. rewrite existsb_exists. split.
  - intros (x & Hx & E). apply Nat.eqb_eq in E. now subst.
  - intros H. exists i. split; auto. apply Nat.eqb_refl.
Qed.

(** Keep the first occurrences. *)
Fixpoint firsts (memo l : list nat) : list nat :=
  match l with [] => memo | i :: l => firsts (if mem i memo then memo else memo ++ [i]) l end.

Lemma firsts_fold h L memo : wf_heap h -> (forall i, In i L -> i < length h /\ children (get h i) = []) ->
  fold_left (fun m c => walk h c m) L memo = firsts memo L.
Proof.
  intros W. revert memo. induction L as [|i L IH]; intros memo F; [reflexivity|]. cbn [fold_left firsts].
  destruct (F i (or_introl eq_refl)) as (Hi & Ci). rewrite (walk_leaf h i memo W Hi Ci). apply IH. intros j Hj. apply F. now right.
Qed.
Lemma modules_sequential h m L : wf_heap h -> m < length h -> get h m = OSequential L ->
  (forall i, In i L -> i < length h /\ children (get h i) = []) -> modules h m = firsts [m] L.
Proof.
  intros W H E F. change (modules h m) with (walk h m []). rewrite walk_unfold, E by auto. cbn [mem existsb children app].
  now apply firsts_fold.
Qed.
