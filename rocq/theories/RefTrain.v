(** Lemmas about the losses: finite tensors, means and Gibbs' inequality. *)
From Coq Require Import List Arith Lia Bool ZArith Reals Lra.
Import ListNotations.
From Verif Require Import Base RSum Num Tensor Prob Layers Circuit Net RefFwd Leaf RefLeaf Einet RefNet RefEinet RefEinetS Build RefBuild Spec RefSpec RefPost Train.
Local Open Scope R_scope.
Local Arguments Nat.div : simpl never.
Local Arguments Nat.modulo : simpl never.
Local Arguments Nat.sub : simpl never.
Local Arguments Nat.mul : simpl never.
Local Arguments Nat.add : simpl never.

Lemma total2 t N K (f : nat -> nat -> R) : shape t = [N; K] -> (forall n k, (n < N)%nat -> (k < K)%nat -> get t [n; k] = Fin (f n k)) ->
  total t = Fin (rsum N (fun n => rsum K (fun k => f n k))) /\ numel (shape t) = (N * K)%nat.
Proof.
  intros Hs H. unfold total. rewrite Hs. cbn [numel]. rewrite Nat.mul_1_r. split; [|reflexivity].
  rewrite <- (rsum_ext N (fun n => rsum K (fun k => f ((n * K + k) / K)%nat ((n * K + k) mod K)%nat))).
  - rewrite <- (rsum_mul N K (fun i => f (i / K)%nat (i mod K)%nat)). apply nsum_fin. intros i Hi. cbn [unravel numel]. rewrite Nat.mul_1_r.
    assert (K <> 0)%nat by nia. rewrite Nat.div_1_r. apply H; [apply Nat.div_lt_upper_bound; lia|apply Nat.mod_upper_bound; auto].
  - intros n Hn. apply rsum_ext. intros k Hk.
    rewrite (Nat.add_comm (n * K)), Nat.div_add, Nat.mod_add, Nat.div_small, Nat.mod_small by lia. rewrite Nat.add_0_l. reflexivity.
Qed.
Lemma total1 t N (f : nat -> R) : shape t = [N] -> (forall n, (n < N)%nat -> get t [n] = Fin (f n)) ->
  total t = Fin (rsum N f) /\ numel (shape t) = N.
Proof.
  intros Hs H. unfold total. rewrite Hs. cbn [numel]. rewrite Nat.mul_1_r. split; [|reflexivity].
  apply nsum_fin. intros i Hi. cbn [unravel numel]. rewrite Nat.div_1_r. auto.
Qed.
Lemma ndiv_fin a n : (0 < n)%nat -> ndiv (Fin a) (Fin (INR n)) = Fin (a / INR n).
Proof. intros H. unfold ndiv. destruct (Req_EM_T (INR n) 0) as [Z|]; [|reflexivity]. apply lt_0_INR in H. lra. Qed.

Section Fwd.
Context {V : Type}.
Variables (g : config) (o : oracle V) (E : einet V).
Hypothesis A : accepted g o E.
Lemma forward_ln N x : batch E N x -> exists y, forward E x None = Ok y /\ shape y = [N; e_K E] /\
  forall n k, (n < N)%nat -> (k < e_K E)%nat -> 0 < lik E x None n k /\ get y [n; k] = Fin (ln (lik E x None n k)).
Proof.
  intros HB. pose proof (batch_input E N x HB) as Hi. pose proof (accepted_ok g o E A) as HE.
  destruct (forward_rep E HE N x None Hi) as (y & Ey & Sy & Gy). exists y. split; [auto|]. split; [auto|].
  intros n k Hn Hk. rewrite (lik_eval E HE N) by auto. split; [apply neteval_row_pos; auto|]. rewrite Gy by auto. reflexivity.
Qed.
Lemma classes_pos : (0 < e_K E)%nat.
Proof. pose proof (accepted_ok g o E A) as HE. pose proof (fnet_wf E HE) as W. apply (eo_K E HE). Qed.
End Fwd.

(** * Inequalities *)
Lemma ln_mono a b : 0 < a -> a <= b -> ln a <= ln b.
Proof. intros Ha [L| ->]; [left; apply ln_increasing; auto|lra]. Qed.
Lemma half_lt a : 0 < a -> - ln a < ln 2 -> / 2 < a.
Proof. intros Ha L. apply ln_lt_inv; [lra|auto|]. rewrite ln_Rinv by lra. lra. Qed.
Lemma ln_le t : 0 < t -> ln t <= t - 1.
Proof. intros H. pose proof (exp_ineq1_le (ln t)). rewrite exp_ln in H0 by auto. lra. Qed.
Lemma ln_lt t : 0 < t -> t <> 1 -> ln t < t - 1.
Proof.
  intros H N. assert (L: ln t <> 0). { intros Z. apply N. rewrite <- ln_1 in Z. apply ln_inv; auto; lra. }
  pose proof (exp_ineq1 (ln t) L). rewrite exp_ln in H0 by auto. lra.
Qed.
Lemma gibbs_term q p : 0 <= q -> 0 < p -> q * ln p - q * ln q <= p - q.
Proof.
  intros Hq Hp. destruct (Req_EM_T q 0) as [->|Z]; [lra|]. assert (0 < q) by lra.
  pose proof (ln_le (p / q) ltac:(apply Rdiv_lt_0_compat; auto)) as L.
  unfold Rdiv in L. rewrite ln_mult, ln_Rinv in L by (auto using Rinv_0_lt_compat).
  assert (q * (ln p + - ln q) <= q * (p * / q - 1)) by (apply Rmult_le_compat_l; lra).
  replace (q * (p * / q - 1)) with (p - q) in H0 by (field; lra). lra.
Qed.
Lemma gibbs_strict q p : 0 <= q -> 0 < p -> q <> p -> q * ln p - q * ln q < p - q.
Proof.
  intros Hq Hp N. destruct (Req_EM_T q 0) as [->|Z]; [lra|]. assert (0 < q) by lra.
  assert (D: p / q <> 1). { intros D. apply N. apply (Rmult_eq_compat_r q) in D. unfold Rdiv in D. rewrite Rmult_assoc, Rinv_l in D by lra. lra. }
  pose proof (ln_lt (p / q) ltac:(apply Rdiv_lt_0_compat; auto) D) as L.
  unfold Rdiv in L. rewrite ln_mult, ln_Rinv in L by (auto using Rinv_0_lt_compat).
  assert (q * (ln p + - ln q) < q * (p * / q - 1)) by (apply Rmult_lt_compat_l; lra).
  replace (q * (p * / q - 1)) with (p - q) in H0 by (field; lra). lra.
Qed.
Lemma lsum_lt {A} (f h : A -> R) l a : In a l -> (forall b, In b l -> f b <= h b) -> f a < h a -> lsum f l < lsum h l.
Proof.
  induction l as [|b l IH]; [intros []|]. intros I H L. cbn [lsum]. destruct I as [->|I].
  - pose proof (lsum_le f h l (fun b Hb => H b (or_intror Hb))). lra.
  - pose proof (H b (or_introl eq_refl)). pose proof (IH I (fun b Hb => H b (or_intror Hb)) L). lra.
Qed.
(** Gibbs: the cross entropy of [q] and [p] is at least the entropy of [q], with equality exactly where they agree. *)
Lemma gibbs {A} (q p : A -> R) l : (forall a, In a l -> 0 <= q a /\ 0 < p a) -> lsum q l = 1 -> lsum p l = 1 ->
  lsum (fun a => q a * - ln (q a)) l <= lsum (fun a => q a * - ln (p a)) l /\
  (lsum (fun a => q a * - ln (q a)) l = lsum (fun a => q a * - ln (p a)) l <-> forall a, In a l -> q a = p a).
Proof.
  intros H Sq Sp.
  assert (D: lsum (fun a => q a * ln (p a) - q a * ln (q a)) l = lsum (fun a => q a * - ln (q a)) l - lsum (fun a => q a * - ln (p a)) l).
  { rewrite (lsum_ext _ (fun a => q a * - ln (q a) + (-1) * (q a * - ln (p a)))) by (intros; ring). rewrite lsum_plus, lsum_scal_l. ring. }
  assert (P: lsum (fun a => p a - q a) l = 0).
  { rewrite (lsum_ext _ (fun a => p a + (-1) * q a)) by (intros; ring). rewrite lsum_plus, lsum_scal_l, Sq, Sp. ring. }
  assert (T: forall a, In a l -> q a * ln (p a) - q a * ln (q a) <= p a - q a) by (intros a Ha; apply gibbs_term; apply H; auto).
  pose proof (lsum_le _ _ l T) as L. cbn beta in L. split; [lra|]. split.
  - intros EQ a Ha. destruct (Req_EM_T (q a) (p a)) as [|N]; auto. exfalso.
    pose proof (lsum_lt _ _ l a Ha T (gibbs_strict _ _ (proj1 (H a Ha)) (proj2 (H a Ha)) N)) as L'. cbn beta in L'. lra.
  - intros EQ. apply lsum_ext. intros a Ha. rewrite (EQ a Ha). reflexivity.
Qed.
(** Jensen for the logarithm of a mean. *)
Lemma jensen K (p : nat -> R) : (0 < K)%nat -> (forall k, (k < K)%nat -> 0 < p k) ->
  rsum K (fun k => ln (p k)) / INR K <= ln (rsum K p / INR K) /\
  (rsum K (fun k => ln (p k)) / INR K = ln (rsum K p / INR K) <-> forall k, (k < K)%nat -> p k = rsum K p / INR K).
Proof.
  intros HK Hp. pose proof (lt_0_INR K HK) as KP. pose proof (rsum_pos K p HK Hp) as SP.
  set (m := rsum K p / INR K). assert (M: 0 < m) by (apply Rdiv_lt_0_compat; auto).
  assert (SM: rsum K (fun k => p k / m - 1) = 0).
  { rewrite (rsum_ext K _ (fun k => / m * p k + (-1))) by (intros; field; lra). rewrite rsum_plus, rsum_scal_l, rsum_const. unfold m. field. split; lra. }
  assert (SL: rsum K (fun k => ln (p k / m)) = rsum K (fun k => ln (p k)) - INR K * ln m).
  { rewrite (rsum_ext K _ (fun k => ln (p k) + - ln m)). { rewrite rsum_plus, rsum_const. ring. }
    intros k Hk. unfold Rdiv. rewrite ln_mult, ln_Rinv by (auto using Rinv_0_lt_compat). reflexivity. }
  assert (T: forall k, In k (seq 0 K) -> ln (p k / m) <= p k / m - 1).
  { intros k Hk. apply in_seq in Hk. apply ln_le. apply Rdiv_lt_0_compat; auto. apply Hp; lia. }
  assert (EQV: forall a b, a / INR K = b <-> a = INR K * b).
  { intros a b. split; intros Z; [rewrite <- Z; field; lra|rewrite Z; field; lra]. }
  pose proof (lsum_le _ _ _ T) as L. unfold rsum in SM, SL. unfold rsum at 1 2. rewrite SM in L. split.
  - apply (Rmult_le_reg_l (INR K)); auto. unfold Rdiv. rewrite <- Rmult_assoc, (Rmult_comm (INR K)), Rmult_assoc, Rinv_r, Rmult_1_r by lra.
    fold m. lra.
  - rewrite EQV. split.
    + intros EQ k Hk. destruct (Req_EM_T (p k) m) as [|N]; auto. exfalso.
      assert (D: p k / m <> 1). { intros D. apply N. apply (Rmult_eq_compat_r m) in D. unfold Rdiv in D. rewrite Rmult_assoc, Rinv_l in D by lra. lra. }
      assert (IK: In k (seq 0 K)) by (apply in_seq; lia).
      assert (PM: 0 < p k / m) by (apply Rdiv_lt_0_compat; auto).
      pose proof (lsum_lt _ _ _ k IK T (ln_lt _ PM D)) as L'. rewrite SM in L'. lra.
    + intros EQ. rewrite (lsum_ext (fun k => ln (p k)) (fun _ => ln m)). { rewrite lsum_const, seq_length. reflexivity. }
      intros k Hk. apply in_seq in Hk. rewrite EQ by lia. reflexivity.
Qed.
