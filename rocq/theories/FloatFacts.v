(** * Rounding errors of products and contractions, in any order. *)
From Coq Require Import Reals ZArith List Permutation Lia Lra Psatz.
From Verif Require Import Spec Tensor FloatUtils FloatLayers SumFacts.
Import ListNotations.
Local Open Scope R_scope.

Definition lsum {A} (f : A -> R) (l : list A) : R := fold_right (fun a s => f a + s) 0 l.
Definition lprod {A} (f : A -> R) (l : list A) : R := fold_right (fun a s => f a * s) 1 l.

Lemma lsum_cons {A} (f : A -> R) a l : lsum f (a :: l) = f a + lsum f l.
Proof. reflexivity. Qed.
Lemma lprod_cons {A} (f : A -> R) a l : lprod f (a :: l) = f a * lprod f l.
Proof. reflexivity. Qed.
Lemma lsum_nil {A} (f : A -> R) : lsum f [] = 0.
Proof. reflexivity. Qed.
Lemma lprod_nil {A} (f : A -> R) : lprod f [] = 1.
Proof. reflexivity. Qed.
Lemma lsum_app {A} (f : A -> R) l l' : lsum f (l ++ l') = lsum f l + lsum f l'.
Proof. induction l; cbn [app]; rewrite ?lsum_nil, ?lsum_cons, ?IHl; ring. Qed.
Lemma lprod_app {A} (f : A -> R) l l' : lprod f (l ++ l') = lprod f l * lprod f l'.
Proof. induction l; cbn [app]; rewrite ?lprod_nil, ?lprod_cons, ?IHl; ring. Qed.
Lemma lsum_perm {A} (f : A -> R) l l' : Permutation l l' -> lsum f l = lsum f l'.
Proof. induction 1; rewrite ?lsum_nil, ?lsum_cons; [reflexivity|now rewrite IHPermutation|ring|congruence]. Qed.
Lemma lprod_perm {A} (f : A -> R) l l' : Permutation l l' -> lprod f l = lprod f l'.
Proof. induction 1; rewrite ?lprod_nil, ?lprod_cons; [reflexivity|now rewrite IHPermutation|ring|congruence]. Qed.
Lemma lsum_seq (f : nat -> R) n : lsum f (seq 0 n) = rsum n f.
Proof. induction n; [reflexivity|]. rewrite seq_S, lsum_app, IHn, lsum_cons, lsum_nil. cbn. ring. Qed.
Lemma lprod_seq (f : nat -> R) n : lprod f (seq 0 n) = rprod n f.
Proof. induction n; [reflexivity|]. rewrite seq_S, lprod_app, IHn, lprod_cons, lprod_nil. cbn. ring. Qed.
Lemma lsum_map {A B} (f : B -> R) (g : A -> B) l : lsum f (map g l) = lsum (fun a => f (g a)) l.
Proof. induction l; cbn [map]; [reflexivity|]. now rewrite !lsum_cons, IHl. Qed.
Lemma lsum_flat_map {A B} (f : B -> R) (g : A -> list B) l : lsum f (flat_map g l) = lsum (fun a => lsum f (g a)) l.
Proof. induction l; cbn [flat_map]; [reflexivity|]. now rewrite lsum_app, lsum_cons, IHl. Qed.
Lemma lsum_nonneg {A} (f : A -> R) l : (forall a, 0 <= f a) -> 0 <= lsum f l.
Proof. intros H. induction l; rewrite ?lsum_nil, ?lsum_cons; [lra|]. specialize (H a). lra. Qed.
Lemma lsum_abs {A} (f : A -> R) l : Rabs (lsum f l) <= lsum (fun a => Rabs (f a)) l.
Proof. induction l; rewrite ?lsum_nil, ?lsum_cons; [rewrite Rabs_R0; lra|]. eapply Rle_trans; [apply Rabs_triang|]. lra. Qed.

Section Any.
Variables (rnd : R -> R) (fmt : R -> Prop) (u eta : R).
Hypothesis Hu : 0 <= u.
Hypothesis He : 0 <= eta.
Hypothesis any_err : forall y, Rabs (rnd y - y) <= u * Rabs y + eta.
Hypothesis add_err : forall a b, fmt a -> fmt b -> Rabs (rnd (a + b) - (a + b)) <= u * Rabs (a + b).
Hypothesis rnd_fmt : forall y, fmt (rnd y).
Hypothesis rnd_id : forall y, fmt y -> rnd y = y.

Lemma contraction_fmt l s : fl_contraction rnd l s -> fmt s.
Proof. induction 1; auto. Qed.

Lemma contraction_nonempty l s : fl_contraction rnd l s -> (1 <= length l)%nat.
Proof. induction 1; cbn [length]; try lia; [rewrite app_length; lia|]. now rewrite <- (Permutation_length H). Qed.

Lemma pow_ge1 k : 1 <= (1 + u) ^ k.
Proof. apply pow_R1_Rle. lra. Qed.

Lemma pow_le' k m : (k <= m)%nat -> (1 + u) ^ k <= (1 + u) ^ m.
Proof. intros. apply Rle_pow; auto. lra. Qed.

(** The error of a contraction of [N] pairs. *)
Lemma contraction_error l s : fl_contraction rnd l s ->
  Rabs (s - lsum (fun p => fst p * snd p) l)
  <= lsum (fun p => Rabs (fst p * snd p)) l * ((1 + u) ^ length l - 1) + INR (length l) * (eta * (1 + u) ^ length l).
Proof.
  induction 1 as [a b|a b l s H IH|l l' s s' H IH H' IH'|l l' s P H IH].
  - rewrite !lsum_cons, !lsum_nil. cbn [length fst snd INR]. rewrite !Rplus_0_r, pow_1, Rmult_1_l.
    eapply Rle_trans; [apply any_err|]. pose proof (Rabs_pos (a * b)). nra.
  - rewrite !lsum_cons. cbn [length fst snd].
    set (T := lsum (fun p : R * R => Rabs (fst p * snd p)) l) in *. set (Q := lsum (fun p : R * R => fst p * snd p) l) in *.
    assert (QT : Rabs Q <= T) by apply (lsum_abs (fun p : R * R => fst p * snd p)).
    pose proof (any_err (a * b + s)) as E. rewrite S_INR. set (N := INR (length l)) in *. assert (HN : 0 <= N) by apply pos_INR.
    set (g := (1 + u) ^ length l) in *. assert (G : 1 <= g) by apply pow_ge1.
    replace ((1 + u) ^ S (length l)) with ((1 + u) * g) by reflexivity.
    replace (rnd (a * b + s) - (a * b + Q)) with ((rnd (a * b + s) - (a * b + s)) + (s - Q)) by ring.
    eapply Rle_trans; [apply Rabs_triang|].
    assert (M : Rabs (a * b + s) <= Rabs (a * b) + T + Rabs (s - Q)).
    { replace (a * b + s) with (a * b + (Q + (s - Q))) by ring. eapply Rle_trans; [apply Rabs_triang|].
      pose proof (Rabs_triang Q (s - Q)). lra. }
    pose proof (Rabs_pos (a * b)). pose proof (Rabs_pos (s - Q)).
    assert (u * Rabs (a * b + s) <= u * (Rabs (a * b) + T + Rabs (s - Q))) by nra.
    assert ((1 + u) * Rabs (s - Q) <= (1 + u) * (T * (g - 1) + N * (eta * g))) by nra.
    assert (G1 : 1 + u <= (1 + u) * g) by (rewrite <- (Rmult_1_r (1 + u)) at 1; apply Rmult_le_compat_l; lra).
    assert (eta <= eta * ((1 + u) * g)) by (rewrite <- (Rmult_1_r eta) at 1; apply Rmult_le_compat_l; lra).
    assert (Rabs (a * b) * u <= Rabs (a * b) * ((1 + u) * g - 1)) by (apply Rmult_le_compat_l; lra).
    nra.
  - rewrite !lsum_app, app_length, plus_INR, pow_add.
    set (T := lsum (fun p : R * R => Rabs (fst p * snd p)) l) in *. set (Q := lsum (fun p : R * R => fst p * snd p) l) in *.
    set (T' := lsum (fun p : R * R => Rabs (fst p * snd p)) l') in *. set (Q' := lsum (fun p : R * R => fst p * snd p) l') in *.
    assert (QT : Rabs Q <= T) by apply (lsum_abs (fun p : R * R => fst p * snd p)).
    assert (QT' : Rabs Q' <= T') by apply (lsum_abs (fun p : R * R => fst p * snd p)).
    pose proof (add_err s s' (contraction_fmt _ _ H) (contraction_fmt _ _ H')) as E.
    assert (G1 : 1 + u <= (1 + u) ^ length l). { rewrite <- (pow_1 (1 + u)) at 1. apply pow_le', (contraction_nonempty _ _ H). }
    assert (G1' : 1 + u <= (1 + u) ^ length l'). { rewrite <- (pow_1 (1 + u)) at 1. apply pow_le', (contraction_nonempty _ _ H'). }
    set (g := (1 + u) ^ length l) in *. set (g' := (1 + u) ^ length l') in *.
    set (N := INR (length l)) in *. assert (HN : 0 <= N) by apply pos_INR. set (N' := INR (length l')) in *. assert (HN' : 0 <= N') by apply pos_INR.
    replace (rnd (s + s') - (Q + Q')) with ((rnd (s + s') - (s + s')) + ((s - Q) + (s' - Q'))) by ring.
    eapply Rle_trans; [apply Rabs_triang|]. pose proof (Rabs_triang (s - Q) (s' - Q')) as X1.
    assert (M : Rabs (s + s') <= T + T' + (Rabs (s - Q) + Rabs (s' - Q'))).
    { replace (s + s') with ((Q + Q') + ((s - Q) + (s' - Q'))) by ring. eapply Rle_trans; [apply Rabs_triang|].
      pose proof (Rabs_triang Q Q'). lra. }
    assert (HT : 0 <= T) by (apply lsum_nonneg; intros; apply Rabs_pos). assert (HT' : 0 <= T') by (apply lsum_nonneg; intros; apply Rabs_pos).
    assert (Y1 : Rabs (rnd (s + s') - (s + s')) <= u * (T + T' + (Rabs (s - Q) + Rabs (s' - Q')))) by nra.
    assert (Y2 : (1 + u) * Rabs (s - Q) <= T * ((1 + u) * g - (1 + u)) + N * (eta * ((1 + u) * g))) by nra.
    assert (Y3 : (1 + u) * Rabs (s' - Q') <= T' * ((1 + u) * g' - (1 + u)) + N' * (eta * ((1 + u) * g'))) by nra.
    assert (A1 : (1 + u) * g <= g * g') by nra. assert (A2 : (1 + u) * g' <= g * g') by nra.
    assert (B1 : T * ((1 + u) * g) <= T * (g * g')) by (apply Rmult_le_compat_l; lra).
    assert (B2 : T' * ((1 + u) * g') <= T' * (g * g')) by (apply Rmult_le_compat_l; lra).
    assert (C1 : N * (eta * ((1 + u) * g)) <= N * (eta * (g * g'))) by (apply Rmult_le_compat_l; auto; apply Rmult_le_compat_l; lra).
    assert (C2 : N' * (eta * ((1 + u) * g')) <= N' * (eta * (g * g'))) by (apply Rmult_le_compat_l; auto; apply Rmult_le_compat_l; lra).
    nra.
  - rewrite <- (lsum_perm _ _ _ P), <- (lsum_perm _ _ _ P), <- (Permutation_length P). exact IH.
Qed.

(** The error of a product of [n] computed factors. *)
Let d := u + eta.
Lemma any_err' y M : Rabs y <= M -> 1 <= M -> Rabs (rnd y - y) <= d * M.
Proof. intros A B. eapply Rle_trans; [apply any_err|]. unfold d. nra. Qed.

Lemma product_error {A} (c x a : A -> R) l0 p : fl_product rnd l0 p -> forall l, l0 = map c l ->
  (forall t, In t l -> 1 <= a t /\ Rabs (x t) <= a t /\ Rabs (c t - x t) <= a t * ((1 + d) ^ 3 - 1)) ->
  1 <= lprod a l /\ Rabs (lprod x l) <= lprod a l /\ Rabs (p - lprod x l) <= lprod a l * ((1 + d) ^ (4 * length l - 1) - 1).
Proof.
  assert (Hd : 0 <= d) by (unfold d; lra).
  induction 1 as [v|l1 l2 p q H IH H' IH'|l1 l2 p P H IH]; intros l E F.
  - destruct l as [|t [|]]; try discriminate. injection E as ->. destruct (F t) as (F1 & F2 & F3); [now left|].
    rewrite !lprod_cons, !lprod_nil, !Rmult_1_r. cbn [length]. auto.
  - symmetry in E. apply map_eq_app in E. destruct E as (k1 & k2 & -> & E1 & E2).
    destruct (IH k1) as (A1 & A2 & A3); auto. { intros t Ht. apply F, in_app_iff. now left. }
    destruct (IH' k2) as (B1 & B2 & B3); auto. { intros t Ht. apply F, in_app_iff. now right. }
    rewrite !lprod_app, app_length.
    assert (N1 : (1 <= length k1)%nat). { clear - H E1. rewrite <- (map_length c), E1. clear E1. induction H; cbn [length]; [lia|rewrite app_length; lia|now rewrite <- (Permutation_length H)]. }
    assert (N2 : (1 <= length k2)%nat). { clear - H' E2. rewrite <- (map_length c), E2. clear E2. induction H'; cbn [length]; [lia|rewrite app_length; lia|now rewrite <- (Permutation_length H)]. }
    set (A0 := lprod a k1) in *. set (B0 := lprod a k2) in *. set (x1 := lprod x k1) in *. set (x2 := lprod x k2) in *.
    replace (4 * (length k1 + length k2) - 1)%nat with (1 + ((4 * length k1 - 1) + (4 * length k2 - 1)))%nat by lia.
    rewrite !pow_add, pow_1. set (g := (1 + d) ^ (4 * length k1 - 1)) in *. set (h := (1 + d) ^ (4 * length k2 - 1)) in *.
    assert (Hg : 1 <= g) by (apply pow_R1_Rle; lra). assert (Hh : 1 <= h) by (apply pow_R1_Rle; lra).
    assert (P1 : Rabs p <= A0 * g). { replace p with (x1 + (p - x1)) by ring. eapply Rle_trans; [apply Rabs_triang|]. lra. }
    assert (P2 : Rabs q <= B0 * h). { replace q with (x2 + (q - x2)) by ring. eapply Rle_trans; [apply Rabs_triang|]. lra. }
    split; [nra|]. split; [rewrite Rabs_mult; apply Rmult_le_compat; auto; apply Rabs_pos|].
    assert (AB : 1 <= A0 * B0) by nra. assert (GH : 1 <= g * h) by nra.
    assert (Q1 : Rabs (p * q) <= A0 * B0 * (g * h)).
    { rewrite Rabs_mult. replace (A0 * B0 * (g * h)) with ((A0 * g) * (B0 * h)) by ring. apply Rmult_le_compat; auto; apply Rabs_pos. }
    assert (Q2 : Rabs (rnd (p * q) - p * q) <= d * (A0 * B0 * (g * h))) by (apply any_err'; auto; nra).
    assert (Q3 : Rabs (p * q - x1 * x2) <= A0 * B0 * (g * h - 1)).
    { replace (p * q - x1 * x2) with ((p - x1) * q + x1 * (q - x2)) by ring. eapply Rle_trans; [apply Rabs_triang|]. rewrite !Rabs_mult.
      assert (Rabs (p - x1) * Rabs q <= A0 * (g - 1) * (B0 * h)) by (apply Rmult_le_compat; auto; apply Rabs_pos).
      assert (Rabs x1 * Rabs (q - x2) <= A0 * (B0 * (h - 1))) by (apply Rmult_le_compat; auto; apply Rabs_pos). nra. }
    replace (rnd (p * q) - x1 * x2) with ((rnd (p * q) - p * q) + (p * q - x1 * x2)) by ring.
    eapply Rle_trans; [apply Rabs_triang|]. nra.
  - subst l2. destruct (Permutation_map_inv _ _ P) as (l3 & -> & P3).
    destruct (IH l3 eq_refl) as (A1 & A2 & A3). { intros t Ht. apply F. eapply Permutation_in; [apply Permutation_sym; exact P3|exact Ht]. }
    apply Permutation_sym in P3. rewrite <- !(lprod_perm _ _ _ P3), <- (Permutation_length P3). auto.
Qed.

(** Contractions with at most one non-zero product are exact. *)
Lemma contraction_zero l s : fl_contraction rnd l s -> rnd 0 = 0 -> (forall p, In p l -> fst p * snd p = 0) -> s = 0.
Proof.
  intros H R0. induction H as [a b|a b l s H IH|l l' s s' H IH H' IH'|l l' s P H IH]; intros Z.
  - pose proof (Z (a, b) (or_introl eq_refl)) as E. cbn in E. now rewrite E.
  - pose proof (Z (a, b) (or_introl eq_refl)) as E. cbn in E. rewrite E, IH by (intros; apply Z; now right). now rewrite Rplus_0_l.
  - rewrite IH, IH' by (intros; apply Z, in_app_iff; auto). now rewrite Rplus_0_l.
  - apply IH. intros p Hp. apply Z. eapply Permutation_in; eauto.
Qed.

Lemma contraction_single l s : fl_contraction rnd l s -> rnd 0 = 0 -> forall p l0, Permutation l (p :: l0) -> fmt (fst p * snd p) ->
  (forall q, In q l0 -> fst q * snd q = 0) -> s = fst p * snd p.
Proof.
  intros H R0. induction H as [a b|a b l s H IH|l l' s s' H IH H' IH'|l l' s P H IH]; intros p l0 P0 F Z.
  - apply Permutation_length_1_inv in P0. injection P0 as -> ->. cbn in *. auto.
  - destruct (in_inv (Permutation_in _ (Permutation_sym P0) (or_introl eq_refl))) as [<-|Hin].
    + cbn [fst snd] in *. apply Permutation_cons_inv in P0.
      rewrite (contraction_zero l s H R0) by (intros q Hq; apply Z; eapply Permutation_in; eauto). rewrite Rplus_0_r. auto.
    + apply in_split in Hin. destruct Hin as (k1 & k2 & ->).
      assert (P1 : Permutation ((a, b) :: k1 ++ k2) l0).
      { apply (Permutation_cons_inv (a := p)). eapply Permutation_trans; [|exact P0].
        eapply Permutation_trans; [apply perm_swap|]. apply perm_skip, Permutation_middle. }
      pose proof (Z (a, b) (Permutation_in _ P1 (or_introl eq_refl))) as E. cbn in E. rewrite E, Rplus_0_l.
      rewrite (IH p (k1 ++ k2)); auto; [apply Permutation_sym, Permutation_middle|].
      intros q Hq. apply Z. eapply Permutation_in; [exact P1|]. now right.
  - assert (Hin : In p (l ++ l')) by (eapply Permutation_in; [apply Permutation_sym; exact P0|now left]).
    apply in_app_iff in Hin. destruct Hin as [Hin|Hin]; apply in_split in Hin; destruct Hin as (k1 & k2 & ->).
    + assert (P1 : Permutation ((k1 ++ k2) ++ l') l0).
      { apply (Permutation_cons_inv (a := p)). eapply Permutation_trans; [|exact P0]. rewrite <- !app_assoc. apply Permutation_middle. }
      rewrite (contraction_zero l' s' H' R0) by (intros q Hq; apply Z; eapply Permutation_in; [exact P1|]; apply in_app_iff; auto).
      rewrite Rplus_0_r, (IH p (k1 ++ k2)); auto; [apply Permutation_sym, Permutation_middle|].
      intros q Hq. apply Z. eapply Permutation_in; [exact P1|]. apply in_app_iff; auto.
    + assert (P1 : Permutation (l ++ (k1 ++ k2)) l0).
      { apply (Permutation_cons_inv (a := p)). eapply Permutation_trans; [|exact P0].
        rewrite !app_assoc. rewrite <- (app_assoc (l ++ k1) [p] k2) || idtac. eapply Permutation_trans; [apply Permutation_middle|]. rewrite <- !app_assoc. apply Permutation_refl. }
      rewrite (contraction_zero l s H R0) by (intros q Hq; apply Z; eapply Permutation_in; [exact P1|]; apply in_app_iff; auto).
      rewrite Rplus_0_l, (IH' p (k1 ++ k2)); auto; [apply Permutation_sym, Permutation_middle|].
      intros q Hq. apply Z. eapply Permutation_in; [exact P1|]. apply in_app_iff; auto.
  - apply (IH p l0); auto. eapply Permutation_trans; eauto.
Qed.

(** Products with a zero factor, and of ones, are exact. *)
Lemma product_has_zero l p : fl_product rnd l p -> rnd 0 = 0 -> In 0 l -> p = 0.
Proof.
  intros H R0. induction H as [v|l l' p q H IH H' IH'|l l' p P H IH]; intros Z.
  - destruct Z as [|[]]; auto.
  - apply in_app_iff in Z. destruct Z as [Z|Z]; [rewrite IH by auto; now rewrite Rmult_0_l|rewrite IH' by auto; now rewrite Rmult_0_r].
  - apply IH. eapply Permutation_in; [apply Permutation_sym; exact P|exact Z].
Qed.
Lemma product_ones l p : fl_product rnd l p -> fmt 1 -> (forall a, In a l -> a = 1) -> p = 1.
Proof.
  intros H F1. induction H as [v|l l' p q H IH H' IH'|l l' p P H IH]; intros Z.
  - apply Z. now left.
  - rewrite IH, IH' by (intros; apply Z, in_app_iff; auto). rewrite Rmult_1_r. auto.
  - apply IH. intros a Ha. apply Z. eapply Permutation_in; eauto.
Qed.

(** Something of this kind always exists. *)
Lemma product_exists l : l <> [] -> exists p, fl_product rnd l p.
Proof.
  induction l as [|a l IH]; [easy|]. intros _. destruct l as [|b l]; [exists a; constructor|].
  destruct IH as [p Hp]; [easy|]. exists (rnd (a * p)). exact (product_mul rnd [a] (b :: l) a p (product_one rnd a) Hp).
Qed.
Lemma contraction_exists l : l <> [] -> exists s, fl_contraction rnd l s.
Proof.
  induction l as [|[a b] l IH]; [easy|]. intros _. destruct l as [|c l]; [exists (rnd (a * b)); constructor|].
  destruct IH as [p Hp]; [easy|]. exists (rnd (a * b + p)). now constructor.
Qed.
End Any.
