(** * The sparse optimizer in floating point (C104). *)
From Coq Require Import Reals ZArith List Lia Lra Psatz.
From Flocq Require Import Core Relative.
From Verif Require Import Spec Tensor Utils Normalization FloatUtils SparseLion FloatLion TensorFacts Prop_Lion Prop_Float.
Import ListNotations.
Local Open Scope R_scope.

(** All results the floating point optimizer can return for a history of gradients. *)
Inductive fl_lion_run (rnd : R -> R) : list group -> list (nat -> nat -> option (tensor R)) -> list group -> Prop :=
| run_nil opt : fl_lion_run rnd opt [] opt
| run_cons opt gr opt1 hist opt' : fl_SparseLion_step rnd opt gr opt1 -> fl_lion_run rnd opt1 hist opt' -> fl_lion_run rnd opt (gr :: hist) opt'.

Section Format.
Variables emin prec : Z.
Hypothesis Hprec : (0 < prec)%Z.
Hypothesis Hemin : (emin <= 0)%Z.
Local Instance prec_pos : Prec_gt_0 prec := Hprec.
Notation rnd := (nearest emin prec).
Notation fmt := (representable emin prec).

Lemma add_step p c b r : fmt p -> (b = 1 \/ b = -1 \/ b = 0) -> fl_add_alpha rnd p c b r -> r = rnd (p + rnd c * b).
Proof.
  intros Hp Hb [-> | ->]; [reflexivity|]. f_equal. f_equal. apply rnd_id; auto.
  destruct Hb as [-> | [-> | ->]]; [rewrite Rmult_1_r|replace (rnd c * -1) with (- rnd c) by ring|rewrite Rmult_0_r]; [|apply fmt_opp|apply generic_format_0]; now apply rnd_fmt.
Qed.

Lemma rnd_opp x : rnd (- x) = - rnd x.
Proof. apply round_NE_opp. Qed.

(** One step of a number. *)
Lemma move_error p d : fmt p -> Rabs (rnd (p + d) - p) <= 2 * Rabs d.
Proof.
  intros Hp. pose proof (round_N_pt radix2 (FLT_exp emin prec) (fun x => negb (Z.even x)) (p + d)) as (_ & N).
  specialize (N p Hp). fold (nearest emin prec (p + d)) in N. change (round radix2 (FLT_exp emin prec) (Znearest (fun x => negb (Z.even x))) (p + d)) with (rnd (p + d)) in N.
  replace (rnd (p + d) - p) with ((rnd (p + d) - (p + d)) + d) by ring. eapply Rle_trans; [apply Rabs_triang|].
  replace (p - (p + d)) with (- d) in N by ring. rewrite Rabs_Ropp in N. lra.
Qed.

Lemma frozen_pos p d : fmt p -> 0 < p -> 2 * (bpow radix2 prec + 1) * Rabs d <= p -> rnd (p + d) = p.
Proof.
  intros Hp P0 Hd. pose proof (bpow_gt_0 radix2 prec) as B0. pose proof (Rabs_pos d) as D0. pose proof (Rle_abs d) as D1. pose proof (Rle_abs (- d)) as D2. rewrite Rabs_Ropp in D2.
  assert (U : p * bpow radix2 (- prec) < ulp radix2 (FLT_exp emin prec) p).
  { rewrite <- (Rabs_pos_eq p) at 1 by lra. apply ulp_FLT_gt. apply _. }
  assert (I : bpow radix2 prec * bpow radix2 (- prec) = 1) by (rewrite <- bpow_plus; replace (prec + - prec)%Z with 0%Z by lia; reflexivity).
  apply Rle_antisym.
  - apply (round_N_le_midp radix2 (FLT_exp emin prec)); [exact Hp|]. rewrite succ_eq_pos by lra.
    assert (2 * Rabs d < ulp radix2 (FLT_exp emin prec) p); [|lra].
    eapply Rle_lt_trans; [|exact U]. apply (Rmult_le_reg_l (bpow radix2 prec)); [lra|].
    replace (bpow radix2 prec * (p * bpow radix2 (- prec))) with p by (rewrite (Rmult_comm p), <- Rmult_assoc, I; ring). nra.
  - apply (round_N_ge_midp radix2 (FLT_exp emin prec)); [exact Hp|].
    set (q := pred radix2 (FLT_exp emin prec) p).
    assert (Q : q + ulp radix2 (FLT_exp emin prec) q = p) by (apply pred_plus_ulp; auto; apply _).
    assert (Q0 : 0 <= q) by (apply pred_ge_0; auto; apply _).
    assert (Uq : q * bpow radix2 (- prec) < ulp radix2 (FLT_exp emin prec) q).
    { rewrite <- (Rabs_pos_eq q) at 1 by lra. apply ulp_FLT_gt. apply _. }
    set (w := ulp radix2 (FLT_exp emin prec) q) in *.
    assert (W : p < (bpow radix2 prec + 1) * w).
    { apply (Rmult_lt_compat_l (bpow radix2 prec)) in Uq; [|lra]. replace (bpow radix2 prec * (q * bpow radix2 (- prec))) with q in Uq by (rewrite (Rmult_comm q), <- Rmult_assoc, I; ring). lra. }
    assert (2 * Rabs d < w); [|lra]. apply (Rmult_lt_reg_l (bpow radix2 prec + 1)); lra.
Qed.

Lemma frozen p d : fmt p -> p <> 0 -> 2 * (bpow radix2 prec + 1) * Rabs d <= Rabs p -> rnd (p + d) = p.
Proof.
  intros Hp P0 Hd. destruct (Rtotal_order p 0) as [L|[L|L]]; [|contradiction|].
  - rewrite (Rabs_left p) in Hd by lra. assert (Q : rnd (- p + - d) = - p).
    { apply frozen_pos; [now apply fmt_opp|lra|now rewrite Rabs_Ropp]. }
    replace (- p + - d) with (- (p + d)) in Q by ring. rewrite rnd_opp in Q. lra.
  - rewrite (Rabs_pos_eq p) in Hd by lra. now apply frozen_pos.
Qed.

(** Gap above a number. *)
Lemma gap p : fmt p -> succ radix2 (FLT_exp emin prec) p - p <= Rmax (bpow radix2 emin) (Rabs p * bpow radix2 (1 - prec)).
Proof.
  intros Hp.
  assert (U : forall x, ulp radix2 (FLT_exp emin prec) x <= Rmax (bpow radix2 emin) (Rabs x * bpow radix2 (1 - prec))).
  { intros x. destruct (Rlt_or_le (Rabs x) (bpow radix2 (emin + prec))) as [L|L].
    - rewrite ulp_FLT_small by (auto; apply _). apply Rmax_l.
    - eapply Rle_trans; [apply ulp_FLT_le|apply Rmax_r]. eapply Rle_trans; [|exact L]. apply bpow_le. lia. }
  destruct (Rle_or_lt 0 p) as [L|L].
  - rewrite succ_eq_pos by exact L. pose proof (U p). lra.
  - assert (Q : pred radix2 (FLT_exp emin prec) (- p) + ulp radix2 (FLT_exp emin prec) (pred radix2 (FLT_exp emin prec) (- p)) = - p). { apply pred_plus_ulp; [apply _|lra|apply generic_format_opp; exact Hp]. }
    rewrite pred_opp in Q. set (s := succ radix2 (FLT_exp emin prec) p) in *. rewrite ulp_opp in Q.
    assert (S0 : s <= 0). { unfold s. apply succ_le_lt; first [apply _|apply generic_format_0|assumption]. }
    assert (S1 : p <= s) by apply succ_ge_id.
    pose proof (U s) as Us. rewrite (Rabs_left1 s) in Us by auto. rewrite (Rabs_left p) by auto.
    assert (M : Rmax (bpow radix2 emin) (- s * bpow radix2 (1 - prec)) <= Rmax (bpow radix2 emin) (- p * bpow radix2 (1 - prec))).
    { apply Rle_max_compat_l. apply Rmult_le_compat_r; [apply bpow_ge_0|lra]. }
    lra.
Qed.

Lemma moves_up p d : fmt p -> fmt d -> 0 < d -> Rabs p < bpow radix2 prec * d -> p < rnd (p + d).
Proof.
  intros Hp Hd D0 L. pose proof (gap p Hp) as Gp. set (s := succ radix2 (FLT_exp emin prec) p) in *.
  assert (Hs : fmt s) by (apply generic_format_succ; first [apply _|exact Hp]).
  assert (Lt : s - p < 2 * d).
  { eapply Rle_lt_trans; [exact Gp|]. apply Rmax_lub_lt.
    - assert (bpow radix2 emin <= d).
      { rewrite <- (ulp_FLT_small radix2 emin prec 0) by (rewrite Rabs_R0; apply bpow_gt_0). rewrite <- succ_0.
        apply succ_le_lt; first [apply _|apply generic_format_0|assumption]. }
      pose proof (bpow_gt_0 radix2 emin). lra.
    - replace (1 - prec)%Z with (1 + - prec)%Z by lia. rewrite bpow_plus. change (bpow radix2 1) with 2.
      assert (I : bpow radix2 prec * bpow radix2 (- prec) = 1) by (rewrite <- bpow_plus; replace (prec + - prec)%Z with 0%Z by lia; reflexivity).
      pose proof (bpow_gt_0 radix2 (- prec)) as B. apply (Rmult_lt_compat_r _ _ _ B) in L.
      replace (bpow radix2 prec * d * bpow radix2 (- prec)) with d in L by (rewrite Rmult_assoc, (Rmult_comm d), <- Rmult_assoc, I; ring). lra. }
  apply Rlt_le_trans with s.
  - unfold s. destruct (Req_dec p 0) as [->|N]; [rewrite succ_0; rewrite ulp_FLT_small by (try apply _; rewrite Rabs_R0; apply bpow_gt_0); apply bpow_gt_0|now apply succ_gt_id].
  - apply (round_N_ge_midp radix2 (FLT_exp emin prec)); [exact Hs|]. unfold s at 2. rewrite pred_succ by (auto; apply _). lra.
Qed.
Lemma moves_down p d : fmt p -> fmt d -> 0 < d -> Rabs p < bpow radix2 prec * d -> rnd (p + - d) < p.
Proof.
  intros Hp Hd D0 L. assert (Q : - p < rnd (- p + d)) by (apply moves_up; auto; [now apply fmt_opp|now rewrite Rabs_Ropp]).
  replace (- p + d) with (- (p + - d)) in Q by ring. rewrite rnd_opp in Q. lra.
Qed.
End Format.

(** One parameter through a history of its gradients. *)
Inductive fl_chain (rnd : R -> R) (s : group) : param -> list (option (tensor R)) -> param -> Prop :=
| chain_nil p : fl_chain rnd s p [] p
| chain_cons p g p1 l p' : fl_step_param rnd s p g p1 -> fl_chain rnd s p1 l p' -> fl_chain rnd s p (g :: l) p'.

Lemma run_chain rnd opt hist opt' : fl_lion_run rnd opt hist opt' -> forall gi pi s p, nth_error opt gi = Some s -> nth_error (g_params s) pi = Some p ->
  exists s' p', nth_error opt' gi = Some s' /\ nth_error (g_params s') pi = Some p' /\
    fl_chain rnd s p (map (fun gr => gr gi pi) hist) p'.
Proof.
  induction 1 as [opt|opt gr opt1 hist opt' Hst Hrun IH]; intros gi pi s p Hs Hp.
  - exists s, p. repeat split; auto. constructor.
  - destruct Hst as (_ & Hst). destruct (Hst gi s Hs) as (ps & _ & H1 & H2). destruct (H2 pi p Hp) as (p1 & Hp1 & St).
    destruct (IH gi pi _ p1 H1 Hp1) as (s' & p' & A & B & C). exists s', p'. do 2 (split; [assumption|]).
    cbn [map]. econstructor; [exact St|]. clear - C. induction C; econstructor; eauto.
Qed.

(** Every step has a result. *)
Lemma step_exists rnd opt grads : exists opt', fl_SparseLion_step rnd opt grads opt'.
Proof.
  exists (mapi (fun i g => mkGroup (g_lr g) (g_beta1 g) (g_beta2 g) (g_wd g)
    (mapi (fun j p => match grads i j with
       | None => p
       | Some gr =>
         let e := match pa_exp_avg p with Some e => e | None => tmap (fun _ => 0) (pa_data p) end in
         mkParam (mkT (shape (pa_data p)) (fun ix => if Req_EM_T (at_ gr ix) 0 then at_ (pa_data p) ix
             else rnd (at_ (pa_data p) ix + rnd (- g_lr g) * sgn (rnd (rnd (at_ e ix * rnd (g_beta1 g)) + rnd (float64 (1 - g_beta1 g)) * at_ gr ix)))))
           (Some (mkT (shape e) (fun ix => if Req_EM_T (at_ gr ix) 0 then at_ e ix
             else rnd (rnd (at_ e ix * rnd (g_beta2 g)) + rnd (float64 (1 - g_beta2 g)) * at_ gr ix))))
       end) 0 (g_params g))) 0 opt).
  assert (Len : forall A B (f : nat -> A -> B) l i, length (mapi f i l) = length l) by (intros A B f l; induction l; intros; cbn; auto).
  split; [apply Len|]. intros i g Hg. eexists. split; [|split; [rewrite mapi_nth, Hg; reflexivity|]].
  - apply Len.
  - intros j p Hp. rewrite mapi_nth, Hp. eexists. split; [reflexivity|]. cbn [Nat.add]. unfold fl_step_param.
    destruct (grads i j) as [gr|]; [|reflexivity]. cbv zeta. split; [reflexivity|]. eexists. split; [reflexivity|]. split; [reflexivity|].
    intros ix. cbn [pa_data at_]. destruct (Req_EM_T (at_ gr ix) 0); [split; reflexivity|].
    eexists. split; [left; reflexivity|]. split; left; reflexivity.
Qed.
Lemma run_exists rnd hist : forall opt, exists opt', fl_lion_run rnd opt hist opt'.
Proof.
  induction hist as [|gr hist IH]; intros opt; [exists opt; constructor|].
  destruct (step_exists rnd opt gr) as (o1 & H1). destruct (IH o1) as (o' & H'). exists o'. econstructor; eauto.
Qed.

(** ** What a step does *)
Definition same_settings (s s' : group) : Prop :=
  g_lr s' = g_lr s /\ g_beta1 s' = g_beta1 s /\ g_beta2 s' = g_beta2 s /\ g_wd s' = g_wd s.

(** A step on an entry whose number is representable: it stays, or the learning rate (as converted to the tensor's format) is
    added or subtracted with one rounding. *)
Theorem C104_step : forall emin prec opt grads opt' gi pi s p, (0 < prec)%Z -> (emin <= 0)%Z ->
  fl_SparseLion_step (nearest emin prec) opt grads opt' ->
  nth_error opt gi = Some s -> nth_error (g_params s) pi = Some p -> (forall ix, representable emin prec (at_ (pa_data p) ix)) ->
  exists s' p', nth_error opt' gi = Some s' /\ same_settings s s' /\ nth_error (g_params s') pi = Some p' /\ shape (pa_data p') = shape (pa_data p) /\
    match grads gi pi with
    | None => p' = p
    | Some gr => forall ix, representable emin prec (at_ (pa_data p') ix) /\
        (at_ gr ix = 0 -> at_ (pa_data p') ix = at_ (pa_data p) ix /\ momentum p' ix = momentum p ix) /\
        (at_ gr ix <> 0 -> exists u, (u = 1 \/ u = -1 \/ u = 0) /\
           at_ (pa_data p') ix = nearest emin prec (at_ (pa_data p) ix - nearest emin prec (g_lr s) * u))
    end.
Proof.
  intros emin prec opt grads opt' gi pi s p P0 E0 (_ & St) Hs Hp F. destruct (St gi s Hs) as (ps & _ & H1 & H2). destruct (H2 pi p Hp) as (p' & Hp' & Q).
  eexists. exists p'. split; [exact H1|]. split; [repeat split|]. split; [exact Hp'|]. unfold fl_step_param in Q.
  destruct (grads gi pi) as [gr|]; [|subst p'; split; reflexivity]. cbv zeta in Q. destruct Q as (Sh & e' & Ee & _ & Q). split; [exact Sh|].
  intros ix. specialize (Q ix). unfold momentum. rewrite Ee.
  destruct (Req_EM_T (at_ gr ix) 0) as [Z|Z].
  - destruct Q as (-> & ->). split; [apply F|]. split; [|contradiction]. intros _. split; [reflexivity|]. destruct (pa_exp_avg p); reflexivity.
  - destruct Q as (d & _ & Q & _).
    apply (add_step emin prec P0) in Q; [|apply F|apply sgn_cases]. split; [rewrite Q; now apply rnd_fmt|]. split; [contradiction|].
    intros _. exists (sgn d). split; [apply sgn_cases|]. rewrite Q, rnd_opp. f_equal. ring.
Qed.
Print Assumptions C104_step.

(** ** Entries without gradient keep their bits, for any rounding whatsoever *)
Theorem C104_untouched : forall rnd opt hist opt' gi pi s p ix, fl_lion_run rnd opt hist opt' ->
  nth_error opt gi = Some s -> nth_error (g_params s) pi = Some p ->
  (forall grads t, In grads hist -> grads gi pi = Some t -> at_ t ix = 0) ->
  exists s' p', nth_error opt' gi = Some s' /\ nth_error (g_params s') pi = Some p' /\
    at_ (pa_data p') ix = at_ (pa_data p) ix /\ momentum p' ix = momentum p ix.
Proof.
  intros rnd opt hist opt' gi pi s p ix Hr Hs Hp Hz. destruct (run_chain rnd opt hist opt' Hr gi pi s p Hs Hp) as (s' & p' & A & B & C).
  exists s', p'. do 2 (split; [assumption|]).
  assert (Z : forall t, In (Some t) (map (fun gr => gr gi pi) hist) -> at_ t ix = 0).
  { intros t Ht. apply in_map_iff in Ht. destruct Ht as (gr & E & I). now apply (Hz gr). }
  clear - C Z. revert Z. induction C as [p|p g p1 l p' St C IH]; intros Z; [split; reflexivity|].
  destruct IH as (I1 & I2); [intros t Ht; apply Z; now right|]. rewrite I1, I2. unfold fl_step_param in St.
  destruct g as [t|]; [|subst; split; reflexivity]. cbv zeta in St. destruct St as (_ & e' & Ee & _ & Q). specialize (Q ix).
  rewrite (Z t (or_introl eq_refl)) in Q. destruct (Req_EM_T 0 0); [|congruence]. destruct Q as (Q1 & Q2). split; [exact Q1|].
  unfold momentum. rewrite Ee, Q2. destruct (pa_exp_avg p); reflexivity.
Qed.
Print Assumptions C104_untouched.

Lemma chain_entry emin prec s p gr p' ix : (0 < prec)%Z -> fl_step_param (nearest emin prec) s p gr p' -> representable emin prec (at_ (pa_data p) ix) ->
  exists u, (u = 1 \/ u = -1 \/ u = 0) /\ at_ (pa_data p') ix = nearest emin prec (at_ (pa_data p) ix + - (nearest emin prec (g_lr s) * u)).
Proof.
  intros P0 St F. unfold fl_step_param in St.
  assert (Stay : exists u, (u = 1 \/ u = -1 \/ u = 0) /\ at_ (pa_data p) ix = nearest emin prec (at_ (pa_data p) ix + - (nearest emin prec (g_lr s) * u))).
  { exists 0. split; [auto|]. rewrite Rmult_0_r, Ropp_0, Rplus_0_r. symmetry. now apply rnd_id. }
  destruct gr as [t|]; [|subst; exact Stay]. cbv zeta in St. destruct St as (_ & e' & _ & _ & Q). specialize (Q ix).
  destruct (Req_EM_T (at_ t ix) 0); [destruct Q as (-> & _); exact Stay|]. destruct Q as (d & _ & Q & _).
  apply (add_step emin prec P0) in Q; [|exact F|apply sgn_cases]. exists (sgn d). split; [apply sgn_cases|]. rewrite Q, rnd_opp. f_equal. ring.
Qed.

(** ** No coordinate moves by more than twice the learning rate in a step *)
Theorem C104_travel_bound : forall emin prec opt hist opt' gi pi s p ix, (0 < prec)%Z -> (emin <= 0)%Z ->
  fl_lion_run (nearest emin prec) opt hist opt' ->
  nth_error opt gi = Some s -> nth_error (g_params s) pi = Some p -> 0 <= g_lr s -> representable emin prec (at_ (pa_data p) ix) ->
  exists s' p', nth_error opt' gi = Some s' /\ nth_error (g_params s') pi = Some p' /\
    representable emin prec (at_ (pa_data p') ix) /\
    Rabs (at_ (pa_data p') ix - at_ (pa_data p) ix) <= INR (length hist) * (2 * nearest emin prec (g_lr s)).
Proof.
  intros emin prec opt hist opt' gi pi s p ix P0 E0 Hr Hs Hp L0 F. destruct (run_chain _ opt hist opt' Hr gi pi s p Hs Hp) as (s' & p' & A & B & C).
  exists s', p'. do 2 (split; [assumption|]). rewrite <- (map_length (fun gr => gr gi pi) hist). set (gs := map _ hist) in *. clearbody gs.
  clear - C F P0 L0. set (r := nearest emin prec (g_lr s)). assert (R0 : 0 <= r) by (unfold r; rewrite <- (rnd_0 emin prec); now apply rnd_le).
  revert F. induction C as [p|p g p1 l p' St C IH]; intros F.
  - split; [exact F|]. rewrite Rminus_eq_0, Rabs_R0. cbn. lra.
  - destruct (chain_entry emin prec s p g p1 ix P0 St F) as (u & Hu & E). fold r in E.
    assert (F1 : representable emin prec (at_ (pa_data p1) ix)) by (rewrite E; now apply rnd_fmt).
    destruct (IH F1) as (F' & D). split; [exact F'|]. cbn [length]. rewrite S_INR.
    pose proof (move_error emin prec P0 (at_ (pa_data p) ix) (- (r * u)) F) as M. rewrite <- E in M.
    assert (U : Rabs (- (r * u)) <= r). { rewrite Rabs_Ropp, Rabs_mult, (Rabs_pos_eq r) by auto. assert (Rabs u <= 1); [|nra]. destruct Hu as [-> | [-> | ->]]; [rewrite Rabs_R1|rewrite Rabs_left|rewrite Rabs_R0]; lra. }
    replace (at_ (pa_data p') ix - at_ (pa_data p) ix) with ((at_ (pa_data p') ix - at_ (pa_data p1) ix) + (at_ (pa_data p1) ix - at_ (pa_data p) ix)) by ring.
    eapply Rle_trans; [apply Rabs_triang|]. lra.
Qed.
Print Assumptions C104_travel_bound.

(** ** Large weights never move again, whatever the gradients *)
Theorem C104_frozen : forall emin prec opt hist opt' gi pi s p ix, (0 < prec)%Z -> (emin <= 0)%Z ->
  fl_lion_run (nearest emin prec) opt hist opt' ->
  nth_error opt gi = Some s -> nth_error (g_params s) pi = Some p -> 0 < g_lr s -> representable emin prec (at_ (pa_data p) ix) ->
  at_ (pa_data p) ix <> 0 -> 2 * (bpow radix2 prec + 1) * nearest emin prec (g_lr s) <= Rabs (at_ (pa_data p) ix) ->
  exists s' p', nth_error opt' gi = Some s' /\ nth_error (g_params s') pi = Some p' /\ at_ (pa_data p') ix = at_ (pa_data p) ix.
Proof.
  intros emin prec opt hist opt' gi pi s p ix P0 E0 Hr Hs Hp L0 F N Big. destruct (run_chain _ opt hist opt' Hr gi pi s p Hs Hp) as (s' & p' & A & B & C).
  exists s', p'. do 2 (split; [assumption|]). set (gs := map _ hist) in *. clearbody gs.
  clear - C F P0 L0 N Big. set (r := nearest emin prec (g_lr s)) in *. assert (R0 : 0 <= r) by (unfold r; rewrite <- (rnd_0 emin prec); apply rnd_le; auto; lra).
  revert F N Big. induction C as [p|p g p1 l p' St C IH]; intros F N Big; [reflexivity|].
  destruct (chain_entry emin prec s p g p1 ix P0 St F) as (u & Hu & E). fold r in E.
  assert (U : Rabs (- (r * u)) <= r). { rewrite Rabs_Ropp, Rabs_mult, (Rabs_pos_eq r) by auto. assert (Rabs u <= 1); [|nra]. destruct Hu as [-> | [-> | ->]]; [rewrite Rabs_R1|rewrite Rabs_left|rewrite Rabs_R0]; lra. }
  rewrite (frozen emin prec P0) in E; [|exact F|exact N|].
  - rewrite IH; rewrite E; auto.
  - eapply Rle_trans; [|exact Big]. apply Rmult_le_compat_l; [|exact U]. pose proof (bpow_gt_0 radix2 prec). lra.
Qed.
Print Assumptions C104_frozen.

Lemma sgn_pos x : 0 < x -> sgn x = 1.
Proof. intros H. unfold sgn. destruct (Rlt_dec 0 x); [reflexivity|lra]. Qed.
Lemma sgn_neg x : x < 0 -> sgn x = -1.
Proof. intros H. unfold sgn. destruct (Rlt_dec 0 x); [lra|]. destruct (Rlt_dec x 0); [reflexivity|lra]. Qed.

(** The direction, when momentum and gradient agree and the gradient does not vanish by underflow. *)
Lemma direction_up emin prec m b c g d : (0 < prec)%Z -> 0 <= m -> 0 <= b -> 0 < g -> bpow radix2 emin <= nearest emin prec c * g ->
  fl_add_alpha (nearest emin prec) (nearest emin prec (m * nearest emin prec b)) c g d -> 0 < d.
Proof.
  intros P0 Hm Hb Hg U Hd. pose proof (bpow_gt_0 radix2 emin) as B0.
  assert (Fe : representable emin prec (bpow radix2 emin)) by (apply generic_format_FLT_bpow; [exact P0|lia]).
  assert (R0 : forall x, 0 <= x -> 0 <= nearest emin prec x) by (intros x Hx; rewrite <- (rnd_0 emin prec); now apply rnd_le).
  assert (A : 0 <= nearest emin prec (m * nearest emin prec b)) by (apply R0, Rmult_le_pos; auto).
  assert (K : forall y, bpow radix2 emin <= y -> bpow radix2 emin <= nearest emin prec y).
  { intros y Hy. rewrite <- (rnd_id emin prec (bpow radix2 emin) Fe) at 1. now apply rnd_le. }
  apply Rlt_le_trans with (bpow radix2 emin); [exact B0|]. destruct Hd as [-> | ->]; apply K; [lra|]. pose proof (K _ U). lra.
Qed.
Lemma direction_down emin prec m b c g d : (0 < prec)%Z -> m <= 0 -> 0 <= b -> g < 0 -> bpow radix2 emin <= nearest emin prec c * - g ->
  fl_add_alpha (nearest emin prec) (nearest emin prec (m * nearest emin prec b)) c g d -> d < 0.
Proof.
  intros P0 Hm Hb Hg U Hd. assert (0 < - d); [|lra].
  apply (direction_up emin prec (- m) b c (- g)); auto; try lra.
  replace (- m * nearest emin prec b) with (- (m * nearest emin prec b)) by ring. rewrite rnd_opp.
  destruct Hd as [-> | ->]; [left|right]; rewrite <- (rnd_opp emin prec (_ + _)); f_equal; [ring|].
  replace (nearest emin prec c * - g) with (- (nearest emin prec c * g)) by ring. rewrite rnd_opp. ring.
Qed.

(** ** Weights that are not large do move against the gradient *)
Theorem C104_moves : forall emin prec opt grads opt' gi pi s p t ix, (0 < prec)%Z -> (emin <= 0)%Z ->
  fl_SparseLion_step (nearest emin prec) opt grads opt' ->
  nth_error opt gi = Some s -> nth_error (g_params s) pi = Some p -> grads gi pi = Some t -> representable emin prec (at_ (pa_data p) ix) ->
  0 < nearest emin prec (g_lr s) -> 0 <= g_beta1 s ->
  Rabs (at_ (pa_data p) ix) < bpow radix2 prec * nearest emin prec (g_lr s) ->
  0 <= momentum p ix * at_ t ix -> at_ t ix <> 0 ->
  bpow radix2 emin <= nearest emin prec (float64 (1 - g_beta1 s)) * Rabs (at_ t ix) ->
  exists s' p', nth_error opt' gi = Some s' /\ nth_error (g_params s') pi = Some p' /\
    (0 < at_ t ix -> at_ (pa_data p') ix < at_ (pa_data p) ix) /\ (at_ t ix < 0 -> at_ (pa_data p) ix < at_ (pa_data p') ix).
Proof.
  intros emin prec opt grads opt' gi pi s p t ix P0 E0 (_ & St) Hs Hp Ht F L0 B0 Small M N U.
  destruct (St gi s Hs) as (ps & _ & H1 & H2). destruct (H2 pi p Hp) as (p' & Hp' & Q). eexists. exists p'. split; [exact H1|]. split; [exact Hp'|].
  unfold fl_step_param in Q. rewrite Ht in Q. cbv zeta in Q. destruct Q as (_ & e' & _ & _ & Q). specialize (Q ix).
  destruct (Req_EM_T (at_ t ix) 0) as [Z|Z]; [contradiction|]. destruct Q as (d & Hd & Q & _).
  assert (Em : at_ (match pa_exp_avg p with Some e => e | None => tmap (fun _ : R => 0) (pa_data p) end) ix = momentum p ix) by (unfold momentum; destruct (pa_exp_avg p); reflexivity).
  rewrite Em in Hd. apply (add_step emin prec P0) in Q; [|exact F|apply sgn_cases]. rewrite rnd_opp in Q.
  split; intros G.
  - rewrite (Rabs_pos_eq (at_ t ix)) in U by lra. assert (0 <= momentum p ix) by nra.
    rewrite (sgn_pos d) in Q by exact (direction_up emin prec (momentum p ix) (g_beta1 s) _ (at_ t ix) d P0 ltac:(assumption) B0 G U Hd). rewrite Rmult_1_r in Q. rewrite Q. apply moves_down; auto. now apply rnd_fmt.
  - rewrite (Rabs_left (at_ t ix)) in U by lra. assert (momentum p ix <= 0) by nra.
    rewrite (sgn_neg d) in Q by exact (direction_down emin prec (momentum p ix) (g_beta1 s) _ (at_ t ix) d P0 ltac:(assumption) B0 G U Hd). replace (- nearest emin prec (g_lr s) * -1) with (nearest emin prec (g_lr s)) in Q by ring.
    rewrite Q. apply moves_up; auto. now apply rnd_fmt.
Qed.
Print Assumptions C104_moves.

(** ** Steps are exact while weight and learning rate lie on a common grid that the precision covers *)
Theorem C104_exact_on_grid : forall emin prec opt grads opt' gi pi s p ix k a c, (0 < prec)%Z -> (emin <= 0)%Z -> (emin <= k)%Z ->
  fl_SparseLion_step (nearest emin prec) opt grads opt' ->
  nth_error opt gi = Some s -> nth_error (g_params s) pi = Some p ->
  at_ (pa_data p) ix = IZR a * bpow radix2 k -> nearest emin prec (g_lr s) = IZR c * bpow radix2 k -> (Z.abs a + Z.abs c < 2 ^ prec)%Z ->
  exists s' p', nth_error opt' gi = Some s' /\ nth_error (g_params s') pi = Some p' /\
    exists u, (u = 1 \/ u = -1 \/ u = 0) /\ at_ (pa_data p') ix = at_ (pa_data p) ix - nearest emin prec (g_lr s) * u.
Proof.
  intros emin prec opt grads opt' gi pi s p ix k a c P0 E0 K (_ & St) Hs Hp Ha Hc B.
  assert (Rep : forall z, (Z.abs z < 2 ^ prec)%Z -> representable emin prec (IZR z * bpow radix2 k)).
  { intros z Hz. apply generic_format_FLT. apply (FLT_spec radix2 emin prec _ (Float radix2 z k)); [reflexivity|exact Hz|exact K]. }
  destruct (St gi s Hs) as (ps & _ & H1 & H2). destruct (H2 pi p Hp) as (p' & Hp' & Q). eexists. exists p'. split; [exact H1|]. split; [exact Hp'|].
  destruct (chain_entry emin prec s p (grads gi pi) p' ix P0 Q) as (u & Hu & E); [rewrite Ha; apply Rep; lia|].
  exists u. split; [exact Hu|]. rewrite E. apply rnd_id; auto. rewrite Ha, Hc.
  assert (Z : exists v, u = IZR v /\ (Z.abs v <= 1)%Z) by (destruct Hu as [-> | [-> | ->]]; [exists 1%Z|exists (-1)%Z|exists 0%Z]; split; first [reflexivity|lia]).
  destruct Z as (v & -> & Hv). match goal with |- representable _ _ ?e => assert (Eq : e = IZR (a - c * v) * bpow radix2 k) end. { rewrite minus_IZR, mult_IZR. ring. } rewrite Eq. apply Rep.
  assert (Z.abs (c * v) <= Z.abs c)%Z by (rewrite Z.abs_mul; nia). lia.
Qed.
Print Assumptions C104_exact_on_grid.

(** ** A gradient can be different from zero and still be ignored: the smallest positive number times 1 - beta1 is rounded to 0 *)
Theorem C104_tiny_gradient_refuted : exists s p t opt', new_SparseLion [pa_data p] (1/8) (7/8) (7/8) 0 = Ok [s] /\ nth_error (g_params s) 0 = Some p /\
  representable (-149) 24 (at_ t [0%nat]) /\ 0 < at_ t [0%nat] /\ Rabs (at_ (pa_data p) [0%nat]) <= 1 /\
  fl_SparseLion_step float32 [s] (fun _ _ => Some t) opt' /\
  (forall s' p', nth_error opt' 0 = Some s' -> nth_error (g_params s') 0 = Some p' -> at_ (pa_data p') [0%nat] = at_ (pa_data p) [0%nat] /\ momentum p' [0%nat] = 0) /\
  (forall s' p', nth_error (SparseLion_step [s] (fun _ _ => Some t)) 0 = Some s' -> nth_error (g_params s') 0 = Some p' ->
     at_ (pa_data p') [0%nat] = at_ (pa_data p) [0%nat] - 1/8).
Proof.
  set (w := mkT [1%nat] (fun _ => 1)). set (p := mkParam w None). set (t := mkT [1%nat] (fun _ : index => bpow radix2 (-149))).
  set (s := mkGroup (1/8) (7/8) (7/8) 0 [p]). destruct (step_exists float32 [s] (fun _ _ => Some t)) as (opt' & St).
  pose proof (bpow_gt_0 radix2 (-149)) as B0. assert (P24 : Prec_gt_0 24) by reflexivity.
  exists s, p, t, opt'. split.
  { unfold new_SparseLion, in_unit. destruct (Rlt_dec 0 (1/8)); [|lra]. destruct (Rle_dec 0 (7/8)); [|lra]. destruct (Rle_dec (7/8) 1); [reflexivity|lra]. }
  split; [reflexivity|]. split; [apply generic_format_FLT_bpow; [reflexivity|lia]|]. split; [exact B0|]. split; [cbn; rewrite Rabs_R1; lra|]. split; [exact St|].
  assert (Eighth : float64 (1 - 7/8) = 1/8 /\ float32 (1/8) = 1/8).
  { replace (1 - 7/8) with (1/8) by lra. replace (1/8) with (bpow radix2 (-3)) by (cbn; lra).
    split; (apply round_generic; [apply _|apply generic_format_FLT_bpow; [reflexivity|lia]]). }
  destruct Eighth as (E64 & E32).
  assert (Z0 : float32 0 = 0) by (apply round_0; apply _).
  assert (Tiny : float32 (1/8 * bpow radix2 (-149)) = 0).
  { apply Rle_antisym.
    - apply (round_N_le_midp radix2 (FLT_exp (-149) 24) (fun x => negb (Z.even x)) 0); [apply generic_format_0|]. rewrite succ_0, ulp_FLT_small; [|reflexivity|rewrite Rabs_R0; apply bpow_gt_0]. lra.
    - rewrite <- Z0. apply round_le; [apply _|apply _|]. lra. }
  split.
  - intros s' p' Hs' Hp'. destruct St as (_ & St). destruct (St 0%nat s eq_refl) as (ps & _ & H1 & H2). destruct (H2 0%nat p eq_refl) as (q & Hq & Q).
    rewrite H1 in Hs'. injection Hs' as <-. cbn [g_params] in Hp'. rewrite Hq in Hp'. injection Hp' as <-.
    unfold fl_step_param in Q. cbv zeta in Q. cbn [pa_exp_avg p] in Q. destruct Q as (_ & e' & Ee & _ & Q). specialize (Q [0%nat]).
    cbn [at_ t tmap pa_data p w g_lr g_beta1 g_beta2 s] in Q. destruct (Req_EM_T (bpow radix2 (-149)) 0) as [Z|_]; [lra|].
    assert (V : forall d, fl_add_alpha float32 (float32 (0 * float32 (7/8))) (float64 (1 - 7/8)) (bpow radix2 (-149)) d -> d = 0).
    { intros d Hd. unfold fl_add_alpha in Hd. rewrite E64, E32, Rmult_0_l, Z0, !Rplus_0_l, Tiny, Z0 in Hd. tauto. }
    destruct Q as (d & Hd & Q & Hm). apply V in Hd. apply V in Hm. subst d.
    assert (S0 : sgn 0 = 0) by (unfold sgn; destruct (Rlt_dec 0 0); [lra|reflexivity]). rewrite S0 in Q.
    assert (One : float32 1 = 1) by (apply round_generic; [apply _|change 1 with (bpow radix2 0); apply generic_format_FLT_bpow; [reflexivity|lia]]).
    split; [|unfold momentum; rewrite Ee; exact Hm]. cbn [pa_data p at_ w]. unfold fl_add_alpha in Q. rewrite Rmult_0_r, Z0, Rplus_0_r, One in Q. tauto.
  - intros s' p' Hs' Hp'. cbn in Hs'. injection Hs' as <-. cbn in Hp'. injection Hp' as <-. cbn -[bpow]. destruct (Req_EM_T (bpow radix2 (-149)) 0); [lra|].
    rewrite sgn_pos by lra. lra.
Qed.
Print Assumptions C104_tiny_gradient_refuted.

(** ** With 8 bits (bfloat16) and the default learning rate a weight of 1/4 never moves *)
Example C104_case : forall hist, exists opt' s' p', fl_lion_run (nearest (-133) 8) [mkGroup (1/10000) (9/10) (99/100) 0 [mkParam (mkT [1%nat] (fun _ => 1/4)) None]] hist opt' /\
  nth_error opt' 0 = Some s' /\ nth_error (g_params s') 0 = Some p' /\ at_ (pa_data p') [0%nat] = 1/4.
Proof.
  intros hist. set (opt := [_]). destruct (run_exists (nearest (-133) 8) hist opt) as (opt' & Hr). exists opt'.
  assert (Q : representable (-133) 8 (1/4)) by (replace (1/4) with (bpow radix2 (-2)) by (cbn; lra); apply generic_format_FLT_bpow; [reflexivity|lia]).
  destruct (C104_frozen (-133) 8 opt hist opt' 0 0 _ _ [0%nat] eq_refl ltac:(lia) Hr eq_refl eq_refl) as (s' & p' & A & B & C); cbn [pa_data at_ g_lr].
  - lra.
  - exact Q.
  - lra.
  - rewrite Rabs_pos_eq by lra. change (bpow radix2 8) with 256.
    assert (nearest (-133) 8 (1/10000) <= bpow radix2 (-13)).
    { rewrite <- (rnd_id (-133) 8 (bpow radix2 (-13))); [|apply generic_format_FLT_bpow; [reflexivity|lia]]. apply rnd_le; [reflexivity|]. cbn. lra. }
    assert (bpow radix2 (-13) = 1/8192) by (cbn; lra). lra.
  - exists s', p'. auto.
Qed.
Example C104_moving_case : Rabs (1/4) < bpow radix2 24 * float32 (1/1024) /\ 0 < float32 (1/1024).
Proof.
  assert (E : float32 (1/1024) = 1/1024) by (replace (1/1024) with (bpow radix2 (-10)) by (cbn; lra); apply round_generic; [apply _|apply generic_format_FLT_bpow; [reflexivity|lia]]).
  rewrite E, Rabs_pos_eq by lra. cbn. lra.
Qed.
