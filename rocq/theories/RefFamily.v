(** Facts about the leaf families. *)
From Coq Require Import List Arith Lia Bool ZArith Reals Lra.
Import ListNotations.
From Verif Require Import Base RSum Num Tensor TypeChecks Leaf RefFwd RefLeaf Spec Family.
Local Open Scope R_scope.

(** * Real versions *)
Definition rlogit (p : R) : R := let q := clamp_probs p in ln q - ln (1 + - q).
Definition rbernoulli (p : R) (v : nat) : R :=
  let l := rlogit p in - ((1 - INR v) * l + (Rmax (- l) 0 + ln (1 + exp (- Rabs l)))).
Definition lfact (k : nat) : R := ln (INR (fact k)).
Definition rbinomial (n : nat) (p : R) (v : nat) : R :=
  let l := rlogit p in
  let normalize_term := INR n * Rmax l 0 + INR n * ln (1 + exp (- Rabs l)) - lfact n in
  INR v * l - lfact v - lfact (n - v) - normalize_term.
Definition rlog_softmax (K : nat) (l : nat -> R) (v : nat) : R := l v - ln (rsum K (fun j => exp (l j))).
Definition rcat_logits (K : nat) (l : nat -> R) : nat -> R := rlog_softmax K (rlog_softmax K l).
Definition rcat (K : nat) (l : nat -> R) (v : nat) : R := rcat_logits K l v.
Definition rcat_mode (K : nat) (l : nat -> R) : nat := nargmax K (fun k => Fin (rsoftmax K (rcat_logits K l) k)).
Definition rnormal (mu sigma x : R) : R := - (x - mu) ^ 2 / (2 * sigma ^ 2) - ln sigma - ln (sqrt (2 * PI)).

Lemma nlog_pos x : 0 < x -> nlog (Fin x) = Fin (ln x).
Proof. intros H. unfold nlog. destruct (Rlt_dec 0 x); [reflexivity|contradiction]. Qed.

(** * Clamping and logits *)
Lemma feps_pos : 0 < feps.
Proof. unfold feps. apply Rinv_0_lt_compat, pow_lt. lra. Qed.
Lemma feps_half : feps < 1 / 2.
Proof.
  unfold feps. rewrite <- (Rinv_inv (1/2)). apply Rinv_lt_contravar.
  - apply Rmult_lt_0_compat; [lra|]. apply pow_lt. lra.
  - replace (/ (1 / 2)) with 2 by field. replace 2 with (2 ^ 1) at 1 by ring. apply Rlt_pow; [lra|lia].
Qed.
Lemma clamp_range p : feps <= clamp_probs p <= 1 - feps.
Proof.
  pose proof feps_half. unfold clamp_probs, Rmin, Rmax. destruct (Rle_dec p feps), (Rle_dec _ (1 - feps)); lra.
Qed.
Lemma clamp_pos p : 0 < clamp_probs p < 1.
Proof. pose proof (clamp_range p). pose proof feps_pos. lra. Qed.
Lemma clamp_half p : 1 / 2 <= p -> 1 / 2 <= clamp_probs p.
Proof. pose proof feps_half. unfold clamp_probs, Rmin, Rmax. intros. destruct (Rle_dec p feps), (Rle_dec _ (1 - feps)); lra. Qed.
Lemma clamp_half_lt p : p < 1 / 2 -> clamp_probs p < 1 / 2.
Proof. pose proof feps_half. unfold clamp_probs, Rmin, Rmax. intros. destruct (Rle_dec p feps), (Rle_dec _ (1 - feps)); lra. Qed.

Lemma exp_logit p : exp (rlogit p) = clamp_probs p / (1 - clamp_probs p).
Proof.
  pose proof (clamp_pos p) as H. unfold rlogit. cbv zeta. replace (1 + - clamp_probs p) with (1 - clamp_probs p) by ring.
  unfold Rminus at 1. rewrite exp_plus, exp_Ropp, !exp_ln by lra. reflexivity.
Qed.
Lemma softplus_eq x : Rmax x 0 + ln (1 + exp (- Rabs x)) = ln (1 + exp x).
Proof.
  pose proof (exp_pos x) as Px. pose proof (exp_pos (- x)) as Pn. unfold Rmax, Rabs. destruct (Rle_dec x 0), (Rcase_abs x).
  - rewrite Ropp_involutive. ring.
  - assert (x = 0) by lra. subst x. rewrite Ropp_0, Rplus_0_l. reflexivity.
  - lra.
  - rewrite <- (ln_exp x) at 1. rewrite <- ln_mult; [|apply exp_pos|lra]. f_equal. rewrite Rmult_plus_distr_l, Rmult_1_r, <- exp_plus.
    replace (x + - x) with 0 by ring. rewrite exp_0. ring.
Qed.
Lemma softplus_logit p : ln (1 + exp (rlogit p)) = - ln (1 - clamp_probs p).
Proof.
  pose proof (clamp_pos p) as H. rewrite exp_logit. replace (1 + clamp_probs p / (1 - clamp_probs p)) with (/ (1 - clamp_probs p)) by (field; lra).
  rewrite ln_Rinv by lra. reflexivity.
Qed.

(** * Bernoulli *)
Lemma bernoulli_one p : rbernoulli p 1 = ln (clamp_probs p).
Proof.
  pose proof (clamp_pos p) as H. unfold rbernoulli. cbv zeta. set (l := rlogit p).
  assert (A: Rmax (- l) 0 + ln (1 + exp (- Rabs l)) = ln (1 + exp (- l))) by (rewrite <- (softplus_eq (- l)), Rabs_Ropp; reflexivity).
  rewrite A. simpl INR. rewrite Rminus_diag_eq by reflexivity. rewrite Rmult_0_l, Rplus_0_l, exp_Ropp. unfold l. rewrite exp_logit.
  replace (1 + / (clamp_probs p / (1 - clamp_probs p))) with (/ clamp_probs p) by (field; lra). rewrite ln_Rinv by lra. ring.
Qed.
Lemma bernoulli_zero p : rbernoulli p 0 = ln (1 - clamp_probs p).
Proof.
  pose proof (clamp_pos p) as H. unfold rbernoulli. cbv zeta. set (l := rlogit p).
  assert (A: Rmax (- l) 0 + ln (1 + exp (- Rabs l)) = ln (1 + exp (- l))) by (rewrite <- (softplus_eq (- l)), Rabs_Ropp; reflexivity).
  rewrite A. simpl INR. rewrite Rminus_0_r, Rmult_1_l.
  rewrite <- (ln_exp l) at 1. rewrite <- ln_mult; [|apply exp_pos|pose proof (exp_pos (- l)); lra].
  rewrite Rmult_plus_distr_l, Rmult_1_r, <- exp_plus. replace (l + - l) with 0 by ring. rewrite exp_0, Rplus_comm. unfold l. rewrite softplus_logit. ring.
Qed.

(** * Binomial *)
Lemma fact_pos k : 0 < INR (fact k).
Proof. apply lt_0_INR, lt_O_fact. Qed.
Lemma rbinomial_eq n p v : (v <= n)%nat ->
  rbinomial n p v = ln (C n v * clamp_probs p ^ v * (1 - clamp_probs p) ^ (n - v)).
Proof.
  intros Hv. pose proof (clamp_pos p) as H. unfold rbinomial. cbv zeta. set (l := rlogit p).
  replace (INR n * Rmax l 0 + INR n * ln (1 + exp (- Rabs l))) with (INR n * ln (1 + exp l)) by (rewrite <- softplus_eq; ring).
  unfold l at 2. rewrite softplus_logit. unfold l, rlogit. cbv zeta. replace (1 + - clamp_probs p) with (1 - clamp_probs p) by ring.
  set (q := clamp_probs p) in *. pose proof (fact_pos n). pose proof (fact_pos v). pose proof (fact_pos (n - v)).
  assert (PC: 0 < C n v) by (unfold C; apply Rdiv_lt_0_compat; auto; apply Rmult_lt_0_compat; auto).
  assert (Pq: 0 < q ^ v) by (apply pow_lt; lra). assert (Pr: 0 < (1 - q) ^ (n - v)) by (apply pow_lt; lra).
  rewrite ln_mult; [|apply Rmult_lt_0_compat; auto|auto]. rewrite ln_mult by auto.
  assert (Lp: forall x k, 0 < x -> ln (x ^ k) = INR k * ln x).
  { intros x k Hx. induction k; [simpl; rewrite ln_1; ring|]. rewrite S_INR. cbn [pow]. rewrite ln_mult; auto; [rewrite IHk; ring|apply pow_lt; auto]. }
  rewrite !Lp by lra. unfold C, Rdiv. rewrite ln_mult; [|auto|apply Rinv_0_lt_compat, Rmult_lt_0_compat; auto].
  rewrite ln_Rinv by (apply Rmult_lt_0_compat; auto). rewrite ln_mult by auto. fold (lfact n) (lfact v) (lfact (n - v)).
  rewrite minus_INR by auto. ring.
Qed.
Lemma rsum_sum_f n f : rsum (S n) f = sum_f_R0 f n.
Proof. induction n; [rewrite rsum_S, rsum_0; simpl; ring|]. rewrite rsum_S, IHn. reflexivity. Qed.
Lemma binomial_sum n p : rsum (S n) (fun v => exp (rbinomial n p v)) = 1.
Proof.
  pose proof (clamp_pos p) as H. rewrite (rsum_ext _ _ (fun v => C n v * clamp_probs p ^ v * (1 - clamp_probs p) ^ (n - v))).
  - rewrite rsum_sum_f, <- binomial. replace (clamp_probs p + (1 - clamp_probs p)) with 1 by ring. apply pow1.
  - intros v Hv. rewrite rbinomial_eq by lia. apply exp_ln. apply Rmult_lt_0_compat; [apply Rmult_lt_0_compat|]; try (apply pow_lt; lra).
    unfold C. apply Rdiv_lt_0_compat; [apply fact_pos|]. apply Rmult_lt_0_compat; apply fact_pos.
Qed.
(** Consecutive values. *)
Lemma binomial_step n p v : (v < n)%nat -> rbinomial n p (S v) - rbinomial n p v =
  ln (INR (n - v) * clamp_probs p / (INR (S v) * (1 - clamp_probs p))).
Proof.
  intros Hv. pose proof (clamp_pos p) as H. unfold rbinomial. cbv zeta. set (l := rlogit p).
  assert (Pv: 0 < INR (S v)) by (apply lt_0_INR; lia). assert (Pn: 0 < INR (n - v)) by (apply lt_0_INR; lia).
  assert (A: lfact (S v) = ln (INR (S v)) + lfact v).
  { unfold lfact. change (fact (S v)) with (S v * fact v)%nat. rewrite mult_INR, ln_mult; auto. apply fact_pos. }
  assert (B: lfact (n - v) = ln (INR (n - v)) + lfact (n - S v)).
  { unfold lfact. replace (n - v)%nat with (S (n - S v)) at 1 2 by lia. change (fact (S (n - S v))) with (S (n - S v) * fact (n - S v))%nat.
    rewrite mult_INR, ln_mult; [reflexivity| |apply fact_pos]. apply lt_0_INR; lia. }
  rewrite A, B. rewrite S_INR at 1. unfold Rdiv.
  rewrite ln_mult; [|apply Rmult_lt_0_compat; lra|apply Rinv_0_lt_compat, Rmult_lt_0_compat; lra].
  rewrite ln_Rinv by (apply Rmult_lt_0_compat; lra). rewrite !ln_mult by lra. unfold l, rlogit. cbv zeta.
  replace (1 + - clamp_probs p) with (1 - clamp_probs p) by ring. ring.
Qed.
Lemma ln_sign x : 0 < x -> (1 <= x -> 0 <= ln x) /\ (x <= 1 -> ln x <= 0).
Proof.
  intros Hx. rewrite <- ln_1. split; intros H.
  - destruct H as [H|H]; [left; apply ln_increasing; lra|right; rewrite H; reflexivity].
  - destruct H as [H|H]; [left; apply ln_increasing; lra|right; rewrite H; reflexivity].
Qed.
Lemma binomial_up n p v : (v < n)%nat -> INR v + 1 <= (INR n + 1) * clamp_probs p -> rbinomial n p v <= rbinomial n p (S v).
Proof.
  intros Hv Hle. pose proof (clamp_pos p) as H. pose proof (binomial_step n p v Hv) as E.
  assert (Pv: 0 < INR (S v)) by (apply lt_0_INR; lia). assert (Pn: 0 < INR (n - v)) by (apply lt_0_INR; lia).
  assert (D: 0 < INR (S v) * (1 - clamp_probs p)) by (apply Rmult_lt_0_compat; lra).
  destruct (ln_sign (INR (n - v) * clamp_probs p / (INR (S v) * (1 - clamp_probs p)))) as [A _].
  { apply Rdiv_lt_0_compat; auto. apply Rmult_lt_0_compat; lra. }
  enough (0 <= rbinomial n p (S v) - rbinomial n p v) by lra. rewrite E. apply A.
  apply Rmult_le_reg_r with (INR (S v) * (1 - clamp_probs p)); auto. unfold Rdiv. rewrite Rmult_assoc, Rinv_l, Rmult_1_r, Rmult_1_l by lra.
  rewrite minus_INR, S_INR by lia. lra.
Qed.
Lemma binomial_down n p v : (v < n)%nat -> (INR n + 1) * clamp_probs p <= INR v + 1 -> rbinomial n p (S v) <= rbinomial n p v.
Proof.
  intros Hv Hle. pose proof (clamp_pos p) as H. pose proof (binomial_step n p v Hv) as E.
  assert (Pv: 0 < INR (S v)) by (apply lt_0_INR; lia). assert (Pn: 0 < INR (n - v)) by (apply lt_0_INR; lia).
  assert (D: 0 < INR (S v) * (1 - clamp_probs p)) by (apply Rmult_lt_0_compat; lra).
  destruct (ln_sign (INR (n - v) * clamp_probs p / (INR (S v) * (1 - clamp_probs p)))) as [_ A].
  { apply Rdiv_lt_0_compat; auto. apply Rmult_lt_0_compat; lra. }
  enough (rbinomial n p (S v) - rbinomial n p v <= 0) by lra. rewrite E. apply A.
  apply Rmult_le_reg_r with (INR (S v) * (1 - clamp_probs p)); auto. unfold Rdiv. rewrite Rmult_assoc, Rinv_l, Rmult_1_r, Rmult_1_l by lra.
  rewrite minus_INR, S_INR by lia. lra.
Qed.
(** A sequence that rises up to [m] and falls afterwards is largest at [m]. *)
Lemma unimodal (f : nat -> R) m n : (m <= n)%nat -> (forall v, (v < m)%nat -> f v <= f (S v)) ->
  (forall v, (m <= v < n)%nat -> f (S v) <= f v) -> forall v, (v <= n)%nat -> f v <= f m.
Proof.
  intros Hm Hu Hd v Hv. destruct (Nat.le_gt_cases v m) as [Hvm|Hvm].
  - assert (A: forall k, (k <= m)%nat -> f (m - k)%nat <= f m).
    { induction k; intros Hk; [rewrite Nat.sub_0_r; lra|]. apply Rle_trans with (f (m - k)%nat); [|apply IHk; lia].
      replace (m - k)%nat with (S (m - S k)) by lia. apply Hu. lia. }
    replace v with (m - (m - v))%nat by lia. apply A. lia.
  - assert (A: forall k, (m + k <= n)%nat -> f (m + k)%nat <= f m).
    { induction k; intros Hk; [rewrite Nat.add_0_r; lra|]. apply Rle_trans with (f (m + k)%nat); [|apply IHk; lia].
      rewrite Nat.add_succ_r. apply Hd. lia. }
    replace v with (m + (v - m))%nat by lia. apply A. lia.
Qed.
Lemma floor_nat x : 0 <= x -> INR (Z.to_nat (Int_part x)) <= x < INR (Z.to_nat (Int_part x)) + 1.
Proof.
  intros Hx. destruct (base_Int_part x) as [A B].
  assert (0 <= Int_part x)%Z. { apply le_IZR. apply IZR_le. assert (-1 < IZR (Int_part x)) by lra. apply lt_IZR in H. lia. }
  rewrite INR_IZR_INZ, Z2Nat.id by auto. lra.
Qed.
Lemma binomial_mode_max n p : 0 <= p < 1 -> (INR n + 1) * feps <= 1 ->
  (binomial_mode n p <= n)%nat /\ forall v, (v <= n)%nat -> rbinomial n p v <= rbinomial n p (binomial_mode n p).
Proof.
  intros Hp Hn. pose proof (pos_INR n) as Pn. pose proof feps_pos as Pe. pose proof feps_half as Pe'.
  assert (Hx: 0 <= p * (INR n + 1)) by (apply Rmult_le_pos; lra).
  destruct (floor_nat _ Hx) as [A B]. fold (binomial_mode n p) in A, B. set (m := binomial_mode n p) in *.
  assert (Hm: (m <= n)%nat).
  { assert (INR m < INR n + 1). { apply Rle_lt_trans with (1 := A). rewrite <- (Rmult_1_l (INR n + 1)) at 2. apply Rmult_lt_compat_r; lra. }
    rewrite <- S_INR in H. apply INR_lt in H. lia. }
  split; auto.
  assert (Q: (p < feps /\ clamp_probs p = feps) \/ clamp_probs p = p \/ (1 - feps < p /\ clamp_probs p = 1 - feps)).
  { unfold clamp_probs, Rmin, Rmax. destruct (Rle_dec p feps), (Rle_dec _ (1 - feps)); try lra. }
  apply unimodal; auto; intros v Hv.
  - apply binomial_up; [lia|]. assert (Hs: INR v + 1 <= INR m) by (rewrite <- S_INR; apply le_INR; lia).
    destruct Q as [[Q1 Q2]|[Q2|[Q1 Q2]]]; rewrite Q2.
    + apply Rle_trans with (p * (INR n + 1)); [lra|]. rewrite (Rmult_comm (INR n + 1)). apply Rmult_le_compat_r; lra.
    + rewrite Rmult_comm. lra.
    + apply le_INR in Hm. rewrite Rmult_minus_distr_l. lra.
  - apply binomial_down; [lia|]. assert (Hs: INR m <= INR v) by (apply le_INR; lia).
    destruct Q as [[Q1 Q2]|[Q2|[Q1 Q2]]]; rewrite Q2.
    + pose proof (pos_INR v). lra.
    + rewrite Rmult_comm. lra.
    + apply Rle_trans with (p * (INR n + 1)); [|lra]. rewrite (Rmult_comm (INR n + 1)). apply Rmult_le_compat_r; lra.
Qed.

(** * Categorical *)
Lemma rlog_softmax_twice K l v : (0 < K)%nat -> rcat_logits K l v = rlog_softmax K l v.
Proof.
  intros HK. unfold rcat_logits. unfold rlog_softmax at 1.
  replace (rsum K (fun j => exp (rlog_softmax K l j))) with 1; [rewrite ln_1; ring|]. symmetry.
  rewrite (rsum_ext _ _ (rsoftmax K l)); [apply rsoftmax_sum; auto|]. intros j Hj. unfold rlog_softmax. apply exp_log_softmax; auto.
Qed.
Lemma categorical_exp K l v : (0 < K)%nat -> exp (rcat K l v) = rsoftmax K l v.
Proof. intros HK. unfold rcat. rewrite rlog_softmax_twice by auto. apply exp_log_softmax; auto. Qed.
Lemma categorical_sum K l : (0 < K)%nat -> rsum K (fun v => exp (rcat K l v)) = 1.
Proof. intros HK. rewrite (rsum_ext _ _ (rsoftmax K l)); [apply rsoftmax_sum; auto|]. intros. apply categorical_exp; auto. Qed.
Lemma rcat_mode_max K l : (0 < K)%nat ->
  (rcat_mode K l < K)%nat /\ forall v, (v < K)%nat -> rcat K l v <= rcat K l (rcat_mode K l).
Proof.
  intros HK. split; [apply nargmax_lt; auto|]. intros v Hv.
  pose proof (nargmax_max K (fun k => Fin (rsoftmax K (rcat_logits K l) k)) (rsoftmax K (rcat_logits K l)) HK (fun _ _ => eq_refl) v Hv) as H.
  fold (rcat_mode K l) in H. unfold rsoftmax in H. set (m := rcat_mode K l) in *.
  pose proof (rsumexp_pos K (rcat_logits K l) HK) as P. unfold rcat.
  destruct (Rle_dec (rcat_logits K l v) (rcat_logits K l m)) as [|N]; auto. exfalso. apply Rnot_le_lt in N. apply exp_increasing in N.
  apply (Rmult_lt_compat_r (/ rsum K (fun j => exp (rcat_logits K l j)))) in N; [|apply Rinv_0_lt_compat; auto]. unfold Rdiv in H. lra.
Qed.

(** * Normal *)
Lemma normal_mode_max mu sigma x : 0 < sigma -> rnormal mu sigma x <= rnormal mu sigma mu.
Proof.
  intros Hs. unfold rnormal. replace (mu - mu) with 0 by ring. replace (- 0 ^ 2 / (2 * sigma ^ 2)) with 0 by (field; lra).
  assert (0 <= (x - mu) ^ 2 / (2 * sigma ^ 2)).
  { apply Rmult_le_pos; [apply pow2_ge_0|]. left. apply Rinv_0_lt_compat. apply Rmult_lt_0_compat; [lra|]. apply pow_lt; auto. }
  replace (- (x - mu) ^ 2 / (2 * sigma ^ 2)) with (- ((x - mu) ^ 2 / (2 * sigma ^ 2))) by (field; lra). lra.
Qed.

(** * The floats are finite and equal the real versions *)
Lemma logit_fin p : probs_to_logits p = Fin (rlogit p).
Proof.
  pose proof (clamp_pos p) as H. unfold probs_to_logits, rlogit, nlog1p. cbv zeta. cbn [nadd]. rewrite !nlog_pos by lra. reflexivity.
Qed.
Lemma nlog1p_exp x : nlog1p (nexp (nneg (nabs (Fin x)))) = Fin (ln (1 + exp (- Rabs x))).
Proof. unfold nlog1p. cbn [nabs nneg nexp nadd]. apply nlog_pos. pose proof (exp_pos (- Rabs x)). lra. Qed.
Lemma bernoulli_fin p v : bernoulli_lp p v = Fin (rbernoulli p v).
Proof. unfold bernoulli_lp. cbv zeta. rewrite logit_fin, nlog1p_exp. reflexivity. Qed.
Lemma lgamma1_fin k : lgamma1 k = Fin (lfact k).
Proof. apply nlog_pos, fact_pos. Qed.
Lemma binomial_fin n p v : binomial_lp n p v = Fin (rbinomial n p v).
Proof. unfold binomial_lp. cbv zeta. rewrite logit_fin, nlog1p_exp, !lgamma1_fin. reflexivity. Qed.
Lemma nlog_softmax_fin K (l : nat -> num) (r : nat -> R) v : (0 < K)%nat -> (v < K)%nat -> (forall k, (k < K)%nat -> l k = Fin (r k)) ->
  nlog_softmax K l v = Fin (rlog_softmax K r v).
Proof.
  intros HK Hv H. unfold nlog_softmax, nlogsumexp. rewrite (nsum_fin K _ (fun k => exp (r k))).
  - rewrite nlog_pos by (apply rsumexp_pos; auto). rewrite H by auto. reflexivity.
  - intros k Hk. rewrite H by auto. reflexivity.
Qed.
Lemma cat_logits_fin K l r v : (v < K)%nat -> (forall k, (k < K)%nat -> l k = Fin (r k)) -> categorical_logits K l v = Fin (rcat_logits K r v).
Proof.
  intros Hv H. unfold categorical_logits, rcat_logits. apply nlog_softmax_fin; auto; [lia|]. intros k Hk. apply nlog_softmax_fin; auto; lia.
Qed.
Lemma cat_mode_fin K l r : (0 < K)%nat -> (forall k, (k < K)%nat -> l k = Fin (r k)) -> categorical_mode K l = rcat_mode K r.
Proof.
  intros HK H. unfold categorical_mode, rcat_mode. apply nargmax_ext. intros k Hk. rewrite (cat_logits_fin K l r) by auto.
  rewrite (nsum_fin K _ (fun j => exp (rcat_logits K r j))).
  - cbn [nexp]. rewrite ndiv_fin; [reflexivity|]. apply Rgt_not_eq, rsumexp_pos; auto.
  - intros j Hj. rewrite (cat_logits_fin K l r) by auto. reflexivity.
Qed.
Lemma normal_fin mu sigma x : 0 < sigma -> normal_lp mu sigma x = Fin (rnormal mu sigma x).
Proof.
  intros Hs. unfold normal_lp. rewrite ndiv_fin, !nlog_pos; auto.
  - apply sqrt_lt_R0. pose proof PI_RGT_0. lra.
  - apply Rgt_not_eq. apply Rmult_lt_0_compat; [lra|]. apply pow_lt; auto.
Qed.
