(** Continuity of functions of several real variables: sums, products, quotients, maxima. *)
From Coq Require Import Reals List Lia Lra.
From Coquelicot Require Import Coquelicot.
From Verif Require Import Spec Normalization NormFacts SumFacts.
Local Open Scope R_scope.

Definition near (n : nat) (x : nat -> R) (P : (nat -> R) -> Prop) : Prop :=
  exists delta, 0 < delta /\ forall y, (forall i, (i < n)%nat -> Rabs (y i - x i) < delta) -> P y.
Global Instance near_filter n x : Filter (near n x).
Proof.
  constructor.
  - exists 1. split; [lra|auto].
  - intros P Q (d & Hd & A) (e & He & B). exists (Rmin d e). split; [now apply Rmin_glb_lt|].
    intros y Hy. split; [apply A|apply B]; intros i Hi; eapply Rlt_le_trans; [apply Hy, Hi|apply Rmin_l|apply Hy, Hi|apply Rmin_r].
  - intros P Q H (d & Hd & A). exists d. split; auto.
Qed.

Lemma continuous_vec_iff n f : continuous_vec n f <-> forall x, filterlim f (near n x) (locally (f x)).
Proof.
  split.
  - intros H x P (eps & HP). destruct (H x eps (cond_pos eps)) as (d & Hd & A). exists d. split; auto.
    intros y Hy. apply HP. now apply A.
  - intros H x eps He. specialize (H x (fun z => Rabs (z - f x) < eps)). apply H. exists (mkposreal eps He). auto.
Qed.

Lemma cv_proj n i : (i < n)%nat -> continuous_vec n (fun x => x i).
Proof. intros Hi x eps He. exists eps. split; auto. Qed.
Lemma cv_const n c : continuous_vec n (fun _ => c).
Proof. intros x eps He. exists 1. split; [lra|]. intros y _. rewrite Rminus_eq_0, Rabs_R0. auto. Qed.
Lemma cv_ext n f g : (forall x, f x = g x) -> continuous_vec n f -> continuous_vec n g.
Proof. intros E H x eps He. destruct (H x eps He) as (d & Hd & A). exists d. split; auto. intros y Hy. rewrite <- !E. auto. Qed.
Lemma cv_comp n (g : R -> R) f : (forall x, continuous g (f x)) -> continuous_vec n f -> continuous_vec n (fun x => g (f x)).
Proof. rewrite !continuous_vec_iff. intros G F x. eapply filterlim_comp; [apply F|apply G]. Qed.
Lemma cv_plus n f g : continuous_vec n f -> continuous_vec n g -> continuous_vec n (fun x => f x + g x).
Proof. rewrite !continuous_vec_iff. intros F G x. eapply filterlim_comp_2; [apply F|apply G|apply (filterlim_plus (f x) (g x))]. Qed.
Lemma cv_mult n f g : continuous_vec n f -> continuous_vec n g -> continuous_vec n (fun x => f x * g x).
Proof. rewrite !continuous_vec_iff. intros F G x. eapply filterlim_comp_2; [apply F|apply G|apply (filterlim_mult (f x) (g x))]. Qed.
Lemma cv_abs n f : continuous_vec n f -> continuous_vec n (fun x => Rabs (f x)).
Proof. apply cv_comp. intros x. apply continuous_Rabs. Qed.
Lemma cv_opp n f : continuous_vec n f -> continuous_vec n (fun x => - f x).
Proof. intros H. apply (cv_ext n (fun x => (-1) * f x)); [intros; ring|]. apply cv_mult; auto using cv_const. Qed.
Lemma cv_minus n f g : continuous_vec n f -> continuous_vec n g -> continuous_vec n (fun x => f x - g x).
Proof. intros F G. apply cv_plus; auto. now apply cv_opp. Qed.
Lemma cv_div n f g : (forall x, g x <> 0) -> continuous_vec n f -> continuous_vec n g -> continuous_vec n (fun x => f x / g x).
Proof.
  intros Z F G. apply cv_mult; auto. apply (cv_comp n Rinv); auto. intros x. apply continuity_pt_filterlim.
  apply (continuity_pt_inv (fun t => t)); [apply continuity_pt_id|auto].
Qed.
Lemma cv_sqrt n f : continuous_vec n f -> continuous_vec n (fun x => sqrt (f x)).
Proof. apply cv_comp. intros x. apply continuous_sqrt. Qed.
Lemma cv_max n f g : continuous_vec n f -> continuous_vec n g -> continuous_vec n (fun x => Rmax (f x) (g x)).
Proof.
  intros F G. apply (cv_ext n (fun x => (f x + g x + Rabs (f x - g x)) / 2)).
  - intros x. unfold Rmax. destruct (Rle_dec (f x) (g x)); [rewrite Rabs_left1|rewrite Rabs_right]; lra.
  - apply cv_div; [intros; lra| |apply cv_const]. apply cv_plus; [now apply cv_plus|]. apply cv_abs. now apply cv_minus.
Qed.
Lemma cv_min n f g : continuous_vec n f -> continuous_vec n g -> continuous_vec n (fun x => Rmin (f x) (g x)).
Proof.
  intros F G. apply (cv_ext n (fun x => - Rmax (- f x) (- g x))).
  - intros x. unfold Rmin, Rmax. destruct (Rle_dec (f x) (g x)), (Rle_dec (- f x) (- g x)); lra.
  - apply cv_opp, cv_max; now apply cv_opp.
Qed.
Lemma cv_rmax n m (f : nat -> (nat -> R) -> R) : (forall k, (k < m)%nat -> continuous_vec n (f k)) -> continuous_vec n (fun x => rmax m (fun k => f k x)).
Proof.
  induction m as [|m IH]; intros H; [apply (cv_const n 0)|]. destruct m as [|m]; [apply H; lia|].
  change (continuous_vec n (fun x => Rmax (rmax (S m) (fun k => f k x)) (f (S m) x))). apply cv_max; [apply IH|apply H]; auto.
Qed.
Lemma cv_rmin n m (f : nat -> (nat -> R) -> R) : (forall k, (k < m)%nat -> continuous_vec n (f k)) -> continuous_vec n (fun x => rmin m (fun k => f k x)).
Proof.
  induction m as [|m IH]; intros H; [apply (cv_const n 0)|]. destruct m as [|m]; [apply H; lia|].
  change (continuous_vec n (fun x => Rmin (rmin (S m) (fun k => f k x)) (f (S m) x))). apply cv_min; [apply IH|apply H]; auto.
Qed.
Lemma cv_rsum n m (f : nat -> (nat -> R) -> R) : (forall k, (k < m)%nat -> continuous_vec n (f k)) -> continuous_vec n (fun x => rsum m (fun k => f k x)).
Proof. induction m as [|m IH]; intros H; [apply (cv_const n 0)|]. cbn [rsum]. apply cv_plus; [apply IH|apply H]; auto. Qed.
Lemma cv_continuity n g f : continuity g -> continuous_vec n f -> continuous_vec n (fun x => g (f x)).
Proof. intros G. apply cv_comp. intros x. apply continuity_pt_filterlim, G. Qed.
