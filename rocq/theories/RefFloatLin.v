(** The error bounds of RefFloatNet.v are of first order in the precision. *)
From Coq Require Import List Arith Lia Bool Reals Lra Psatz.
Import ListNotations.
From Verif Require Import Base RSum Num Tensor Layers Circuit Net RefFwd Leaf Einet RefNet RefEinet Float RefFloat RefFloatNet.
Local Open Scope R_scope.

(** * Functions of the precision *)
Definition ev (P : R -> Prop) : Prop := exists t0, 0 < t0 /\ forall t, 0 <= t <= t0 -> P t.
Definition lin (f : R -> R) : Prop := exists K, 0 <= K /\ ev (fun t => Rabs (f t) <= K * t).
Definition bd (f : R -> R) : Prop := exists K, 0 <= K /\ ev (fun t => Rabs (f t) <= K).

Lemma ev_and P Q : ev P -> ev Q -> ev (fun t => P t /\ Q t).
Proof.
  intros (a & Ha & H1) (b & Hb & H2). exists (Rmin a b). split; [apply Rmin_glb_lt; auto|]. intros t Ht.
  pose proof (Rmin_l a b). pose proof (Rmin_r a b). split; [apply H1|apply H2]; lra.
Qed.
Lemma ev_imp (P Q : R -> Prop) : (forall t, 0 <= t -> P t -> Q t) -> ev P -> ev Q.
Proof. intros H (a & Ha & H1). exists a. split; auto. intros t Ht. apply H; [lra|]. apply H1; auto. Qed.
Lemma ev_le c : 0 < c -> ev (fun t => t <= c).
Proof. intros H. exists c. split; auto. intros; lra. Qed.
Lemma ev_true (P : R -> Prop) : (forall t, 0 <= t -> P t) -> ev P.
Proof. intros H. exists 1. split; [lra|]. intros t Ht. apply H; lra. Qed.

Lemma lin_ext f f' : (forall t, f t = f' t) -> lin f -> lin f'.
Proof. intros E (K & HK & H). exists K. split; auto. apply (ev_imp (fun t => Rabs (f t) <= K * t)); auto. intros t _. rewrite E. auto. Qed.
Lemma lin_small f c : 0 < c -> lin f -> ev (fun t => Rabs (f t) <= c).
Proof.
  intros Hc (K & HK & H). apply (ev_imp (fun t => Rabs (f t) <= K * t /\ t <= c / (K + 1))).
  - intros t Ht [A B]. eapply Rle_trans; [exact A|]. apply Rle_trans with (K * (c / (K + 1))); [apply Rmult_le_compat_l; auto|].
    unfold Rdiv. replace (K * (c * / (K + 1))) with (c * (K * / (K + 1))) by ring. rewrite <- (Rmult_1_r c) at 2. apply Rmult_le_compat_l; [lra|].
    apply Rmult_le_reg_r with (K + 1); [lra|]. rewrite Rmult_assoc, Rinv_l by lra. lra.
  - apply ev_and; auto. apply ev_le. apply Rdiv_lt_0_compat; lra.
Qed.
Lemma lin_bd f : lin f -> bd f.
Proof. intros H. exists 1. split; [lra|]. apply lin_small; auto. lra. Qed.
Lemma lin_id : lin (fun t => t).
Proof. exists 1. split; [lra|]. apply ev_true. intros t Ht. rewrite Rabs_pos_eq; lra. Qed.
Lemma lin_0 : lin (fun _ => 0).
Proof. exists 0. split; [lra|]. apply ev_true. intros t Ht. rewrite Rabs_R0; lra. Qed.
Lemma bd_const c : bd (fun _ => c).
Proof. exists (Rabs c). split; [apply Rabs_pos|]. apply ev_true. intros; lra. Qed.
Lemma lin_plus f h : lin f -> lin h -> lin (fun t => f t + h t).
Proof.
  intros (K & HK & H) (K' & HK' & H'). exists (K + K'). split; [lra|]. eapply ev_imp; [|apply (ev_and _ _ H H')]. intros t Ht [A B]. cbv beta.
  eapply Rle_trans; [apply Rabs_triang|]. rewrite Rmult_plus_distr_r. lra.
Qed.
Lemma bd_plus f h : bd f -> bd h -> bd (fun t => f t + h t).
Proof.
  intros (K & HK & H) (K' & HK' & H'). exists (K + K'). split; [lra|]. eapply ev_imp; [|apply (ev_and _ _ H H')]. intros t Ht [A B]. cbv beta.
  eapply Rle_trans; [apply Rabs_triang|]. lra.
Qed.
Lemma lin_mult f h : lin f -> bd h -> lin (fun t => f t * h t).
Proof.
  intros (K & HK & H) (K' & HK' & H'). exists (K * K'). split; [apply Rmult_le_pos; auto|]. eapply ev_imp; [|apply (ev_and _ _ H H')]. intros t Ht [A B]. cbv beta.
  rewrite Rabs_mult. replace (K * K' * t) with (K * t * K') by ring. apply Rmult_le_compat; auto; apply Rabs_pos.
Qed.
Lemma lin_mult_l f h : lin f -> bd h -> lin (fun t => h t * f t).
Proof. intros A B. apply lin_ext with (fun t => f t * h t); [intros; ring|]. apply lin_mult; auto. Qed.
Lemma lin_scal c f : lin f -> lin (fun t => c * f t).
Proof. intros H. apply lin_mult_l; auto. apply bd_const. Qed.
(** Products of factors close to one *)
Lemma lin_1p f h : lin f -> lin h -> lin (fun t => (1 + f t) * (1 + h t) - 1).
Proof.
  intros A B. apply lin_ext with (fun t => f t + h t + f t * h t); [intros; ring|]. apply lin_plus; [apply lin_plus; auto|]. apply lin_mult; auto. apply lin_bd; auto.
Qed.
Lemma bd_1p f : lin f -> bd (fun t => 1 + f t).
Proof. intros H. apply bd_plus; [apply bd_const|apply lin_bd; auto]. Qed.
Lemma lin_exp f : lin f -> lin (fun t => exp (f t) - 1).
Proof.
  intros H. pose proof (lin_small f (1/2) ltac:(lra) H) as S. destruct H as (K & HK & H). exists (2 * K). split; [lra|].
  eapply ev_imp; [|apply (ev_and _ _ H S)]. intros t Ht [A B]. cbv beta. set (x := f t) in *. assert (X: Rabs (exp x - 1) <= 2 * Rabs x); [|lra].
  apply Rabs_le_iff in B. pose proof (exp_ineq1_le x) as L1. pose proof (exp_ineq1_le (- x)) as L2. pose proof (exp_pos x) as P.
  assert (E: exp x * exp (- x) = 1) by (rewrite <- exp_plus, Rplus_opp_r; apply exp_0).
  assert (U: exp x * (1 - x) <= 1) by nra. unfold Rabs. destruct (Rcase_abs x), (Rcase_abs (exp x - 1)); nra.
Qed.
Lemma lin_lam f : lin f -> lin (fun t => lam (f t)).
Proof.
  intros H. pose proof (lin_small f (1/2) ltac:(lra) H) as S. destruct H as (K & HK & H). exists (2 * K). split; [lra|].
  eapply ev_imp; [|apply (ev_and _ _ H S)]. intros t Ht [A B]. cbv beta. set (x := f t) in *. assert (X: Rabs (lam x) <= 2 * Rabs x); [|lra].
  apply Rabs_le_iff in B. unfold lam. assert (P: 0 < 1 - x) by lra.
  assert (U: forall y, 0 < y -> ln y <= y - 1).
  { intros y Hy. pose proof (exp_ineq1_le (ln y)) as Q. rewrite exp_ln in Q; auto. lra. }
  pose proof (U (1 - x) P) as U1. pose proof (U (/ (1 - x)) (Rinv_0_lt_compat _ P)) as U2. rewrite ln_Rinv in U2 by auto.
  assert (I: (1 - x) * / (1 - x) = 1) by (apply Rinv_r; lra). set (i := / (1 - x)) in *.
  assert (Q: i - 1 <= 2 * Rabs x).
  { unfold Rabs. destruct (Rcase_abs x); nra. }
  rewrite Rabs_Ropp. assert (x <= Rabs x) by apply Rle_abs. assert (- x <= Rabs x) by (rewrite <- Rabs_Ropp; apply Rle_abs). apply Rabs_le_iff. lra.
Qed.

(** * The bounds *)
Section Lin.
Variables (Lam c : R).
Definition gl (n : nat) (t : R) : R := c * INR n * t.
Lemma lin_gl n : lin (gl n).
Proof. unfold gl. apply lin_scal. apply lin_id. Qed.
Lemma lin_rho_exp M : bd M -> lin (fun t => rho_exp t (M t)).
Proof.
  intros HM. unfold rho_exp. apply lin_ext with (fun t => (1 + (exp (2 * t * M t) - 1)) * (1 + t) - 1); [intros; ring|]. apply lin_1p; [|apply lin_id]. apply lin_exp.
  apply lin_mult; auto. apply lin_scal, lin_id.
Qed.
Lemma lin_mul_rho r1 r2 : lin r1 -> lin r2 -> lin (fun t => mul_rho t (r1 t) (r2 t)).
Proof.
  intros A B. unfold mul_rho. apply lin_ext with (fun t => (1 + ((1 + r1 t) * (1 + r2 t) - 1)) * (1 + t) - 1); [intros; ring|]. apply lin_1p; [|apply lin_id]. apply lin_1p; auto.
Qed.
Lemma lin_mul_alpha r1 a1 r2 a2 : lin r1 -> lin a1 -> lin r2 -> lin a2 -> lin (fun t => mul_alpha t t (r1 t) (a1 t) (r2 t) (a2 t)).
Proof.
  intros. unfold mul_alpha. apply lin_plus; [|apply lin_id]. apply lin_mult_l; [|apply bd_1p, lin_id].
  apply lin_plus; [apply lin_plus|]; try (apply lin_mult_l; auto; apply bd_1p; auto). apply lin_mult; auto. apply lin_bd; auto.
Qed.
Lemma lin_sum_rho n r : lin r -> lin (fun t => sum_rho (gl n t) (r t)).
Proof. intros H. unfold sum_rho. apply lin_1p; auto. apply lin_gl. Qed.
Lemma lin_sum_alpha n m a : lin a -> lin (fun t => sum_alpha (gl n t) m (a t)).
Proof. intros H. unfold sum_alpha. apply lin_mult_l; [apply lin_scal; auto|apply bd_1p, lin_gl]. Qed.
Lemma lin_lse_rel n M : bd M -> lin (fun t => lse_rel t t (fun n => gl n t) n (M t)).
Proof.
  intros H. unfold lse_rel. apply lin_plus; [apply lin_sum_rho, lin_rho_exp; auto|]. unfold Rdiv. apply lin_mult; [apply lin_sum_alpha, lin_id|apply bd_const].
Qed.
Lemma lin_log_tau rel w : lin rel -> lin (fun t => log_tau t (rel t) w).
Proof.
  intros H. unfold log_tau. apply lin_plus; [apply lin_lam; auto|]. apply lin_mult; [apply lin_id|]. apply bd_plus; [apply bd_const|]. apply lin_bd, lin_lam; auto.
Qed.
Lemma lin_lse_tau n M : bd M -> lin (fun t => lse_tau t t (fun n => gl n t) n (M t)).
Proof.
  intros H. unfold lse_tau. cbv zeta. pose proof (lin_log_tau _ (ln (INR n)) (lin_lse_rel n M H)) as L. apply lin_plus; auto. apply lin_mult; [apply lin_id|].
  apply bd_plus; [apply bd_plus; [apply bd_const|auto]|apply lin_bd; auto].
Qed.
Lemma lin_add_tau s M w : bd M -> lin (fun t => add_tau t (fun n => gl n t) s (M t) w).
Proof.
  intros H. unfold add_tau. apply lin_plus; [apply lin_gl|]. apply lin_mult; [apply lin_id|]. apply bd_plus; [apply bd_plus; [auto|apply bd_const]|apply lin_bd, lin_gl].
Qed.
Lemma bd_wsum s M w : bd M -> bd (fun t => M t + w + add_tau t (fun n => gl n t) s (M t) w).
Proof. intros H. apply bd_plus; [apply bd_plus; [auto|apply bd_const]|apply lin_bd, lin_add_tau; auto]. Qed.
Lemma lin_wsum_rel s M w : bd M -> lin (fun t => wsum_rel t t (fun n => gl n t) (fun n => gl n t) s (M t) w).
Proof. intros H. unfold wsum_rel. apply lin_lse_rel. apply bd_wsum; auto. Qed.
Lemma lin_wsum_tau s M w : bd M -> lin (fun t => wsum_tau t t (fun n => gl n t) (fun n => gl n t) s (M t) w).
Proof. intros H. unfold wsum_tau. apply lin_plus; [apply lin_lse_tau, bd_wsum; auto|apply lin_add_tau; auto]. Qed.
Lemma bd_scal k M : bd M -> bd (fun t => k * M t).
Proof.
  intros (K & HK & H). exists (Rabs k * K). split; [apply Rmult_le_pos; auto; apply Rabs_pos|]. eapply ev_imp; [|exact H]. intros t _ Q. cbv beta in *. rewrite Rabs_mult. apply Rmult_le_compat_l; auto. apply Rabs_pos.
Qed.
Lemma bd_lin_M M : bd M -> bd (fun t => lin_M t (M t)).
Proof. intros H. unfold lin_M. apply bd_plus; [apply bd_scal; auto|]. apply lin_bd. apply lin_mult; [apply lin_id|apply bd_scal; auto]. Qed.
Lemma lin_linsum_rel s M w : bd M -> lin (fun t => linsum_rel t t (fun n => gl n t) (fun n => gl n t) s (M t) w).
Proof. intros H. unfold linsum_rel. apply (lin_wsum_rel s (fun t => lin_M t (M t))). apply bd_lin_M; auto. Qed.
Lemma lin_linsum_tau s M w : bd M -> lin (fun t => linsum_tau t t (fun n => gl n t) (fun n => gl n t) s (M t) w).
Proof. intros H. unfold linsum_tau. apply lin_plus; [apply (lin_wsum_tau s (fun t => lin_M t (M t))), bd_lin_M; auto|]. apply lin_mult; [apply lin_id|apply bd_scal; auto]. Qed.
Lemma lin_ein_rel s M w : bd M -> lin (fun t => ein_rel t t (fun n => gl n t) (fun n => gl n t) s (M t) w).
Proof.
  intros H. pose proof (lin_rho_exp M H) as R1. pose proof (lin_mul_rho _ _ R1 R1) as R2. pose proof (lin_mul_rho _ _ R2 (lin_gl (s * s))) as R3.
  pose proof (lin_mul_alpha _ _ _ _ R1 lin_id R1 lin_id) as A2. pose proof (lin_mul_alpha _ _ _ _ R2 A2 (lin_gl (s * s)) lin_id) as A3.
  unfold ein_rel. apply lin_plus; [apply (lin_sum_rho (s * s) _ R3)|]. unfold Rdiv. apply lin_mult; [|apply bd_const]. apply (lin_sum_alpha (s * s) (s * s) _ A3).
Qed.
Lemma lin_ein_tau s M w : bd M -> lin (fun t => ein_tau t t (fun n => gl n t) (fun n => gl n t) s (M t) w).
Proof.
  intros H. unfold ein_tau. cbv zeta. set (e0 := fun t => log_tau t (ein_rel t t (fun n => gl n t) (fun n => gl n t) s (M t) w) (- ln w)).
  assert (L0: lin e0) by (apply lin_log_tau, lin_ein_rel; auto). set (e1 := fun t => e0 t + t * (- ln w + M t + e0 t)).
  assert (L1: lin e1).
  { apply lin_plus; auto. apply lin_mult; [apply lin_id|]. apply bd_plus; [apply bd_plus; [apply bd_const|auto]|apply lin_bd; auto]. }
  change (lin (fun t => e1 t + t * (- ln w + M t + M t + e1 t))). apply lin_plus; auto. apply lin_mult; [apply lin_id|].
  apply bd_plus; [apply bd_plus; [apply bd_plus; [apply bd_const|auto]|auto]|apply lin_bd; auto].
Qed.
Lemma bd_Be B e : lin e -> bd (fun t => B + e t).
Proof. intros H. apply bd_plus; [apply bd_const|apply lin_bd; auto]. Qed.
Lemma lin_layer_e l B e : lin e -> lin (fun t => layer_e Lam t t (fun n => gl n t) (fun n => gl n t) l B (e t)).
Proof.
  intros H. pose proof (bd_Be B e H) as HB. destruct l as [L|L|L|L|D]; cbn [layer_e].
  - apply lin_plus; [apply lin_scal; auto|]. apply (lin_ein_tau (sin L) (fun t => B + e t)); auto.
  - apply lin_plus; [apply lin_scal; auto|]. apply (lin_linsum_tau (sin L) (fun t => B + e t)); auto.
  - cbv zeta. set (e1 := fun t => e t + wsum_tau t t (fun n => gl n t) (fun n => gl n t) (sin L) (B + e t) (W Lam (sin L))).
    assert (L1: lin e1) by (apply lin_plus; auto; apply (lin_wsum_tau (sin L) (fun t => B + e t)); auto).
    change (lin (fun t => 2 * e1 t + t * (2 * (B + e1 t)))). apply lin_plus; [apply lin_scal; auto|]. apply lin_mult; [apply lin_id|]. apply bd_scal. apply bd_Be; auto.
  - apply lin_plus; auto. apply (lin_wsum_tau (sin L) (fun t => B + e t)); auto.
  - apply lin_plus; [apply lin_scal; auto|]. apply lin_mult; [apply lin_gl|]. apply bd_scal; auto.
Qed.
Lemma lin_lt1 f : lin f -> ev (fun t => f t < 1).
Proof. intros H. eapply ev_imp; [|apply (lin_small f (1/2) ltac:(lra) H)]. intros t _ Q. cbv beta in Q. apply Rabs_le_iff in Q. lra. Qed.
Lemma ev_layer_safe l B e : lin e -> ev (fun t => layer_safe Lam t t (fun n => gl n t) (fun n => gl n t) l B (e t)).
Proof.
  intros H. pose proof (bd_Be B e H) as HB. destruct l as [L|L|L|L|D]; cbn [layer_safe].
  - apply lin_lt1. apply (lin_ein_rel (sin L) (fun t => B + e t)); auto.
  - apply lin_lt1. apply (lin_linsum_rel (sin L) (fun t => B + e t)); auto.
  - apply lin_lt1. apply (lin_wsum_rel (sin L) (fun t => B + e t)); auto.
  - apply lin_lt1. apply (lin_wsum_rel (sin L) (fun t => B + e t)); auto.
  - apply ev_true. auto.
Qed.
Lemma lin_layers_e ls : forall B e, lin e -> lin (fun t => layers_e Lam t t (fun n => gl n t) (fun n => gl n t) ls B (e t)).
Proof. induction ls as [|l ls IH]; intros B e H; cbn [layers_e]; auto. apply (IH (layer_B l B) (fun t => layer_e Lam t t (fun n => gl n t) (fun n => gl n t) l B (e t))). apply lin_layer_e; auto. Qed.
Lemma ev_layers_safe ls : forall B e, lin e -> ev (fun t => layers_safe Lam t t (fun n => gl n t) (fun n => gl n t) ls B (e t)).
Proof.
  induction ls as [|l ls IH]; intros B e H; cbn [layers_safe]; [apply ev_true; auto|]. apply ev_and; [apply ev_layer_safe; auto|].
  apply (IH (layer_B l B) (fun t => layer_e Lam t t (fun n => gl n t) (fun n => gl n t) l B (e t))). apply lin_layer_e; auto.
Qed.
Lemma lin_leaf_e C F Bq d : lin d -> lin (fun t => leaf_e (fun n => gl n t) C F Bq (d t)).
Proof.
  intros H. unfold leaf_e. cbv zeta. set (e1 := fun t => INR C * d t + gl C t * (INR C * (Bq + d t))).
  assert (L1: lin e1) by (apply lin_plus; [apply lin_scal; auto|]; apply lin_mult; [apply lin_gl|]; apply bd_scal, bd_Be; auto).
  change (lin (fun t => INR F * e1 t + gl F t * (INR F * (INR C * Bq + e1 t)))). apply lin_plus; [apply lin_scal; auto|]. apply lin_mult; [apply lin_gl|]. apply bd_scal, bd_Be; auto.
Qed.
Theorem net_first_order {V} (E : einet V) Bq :
  lin (fun t => net_e Lam t t (fun n => gl n t) (fun n => gl n t) E Bq (c * t)) /\
  ev (fun t => net_safe Lam t t (fun n => gl n t) (fun n => gl n t) E Bq (c * t)).
Proof.
  assert (Ld: lin (fun t => c * t)) by (apply lin_scal, lin_id). pose proof (lin_leaf_e (e_C E) (e_F E) Bq _ Ld) as Ll. cbv beta in Ll.
  pose proof (lin_layers_e (e_layers E) (leaf_B (e_C E) (e_F E) Bq) _ Ll) as Le. pose proof (ev_layers_safe (e_layers E) (leaf_B (e_C E) (e_F E) Bq) _ Ll) as Se. cbv beta in Le, Se.
  pose proof (bd_Be (net_B E Bq) _ Le) as HB. split.
  - unfold net_e, pre_e. cbv zeta. destruct (1 <? e_R E)%nat; auto. apply lin_plus; auto. apply (lin_wsum_tau (e_R E) _ _ HB).
  - unfold net_safe. apply ev_and; auto. eapply ev_imp; [|apply (lin_lt1 _ (lin_wsum_rel (e_R E) _ (W Lam (e_R E)) HB))]. intros t _ Q _. exact Q.
Qed.
End Lin.
