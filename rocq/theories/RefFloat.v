(** Rounding errors of the forward pass, node by node. *)
From Coq Require Import List Arith Lia Bool Reals Lra Psatz.
Import ListNotations.
From Verif Require Import Base RSum Num Tensor Layers Einet Float.
Local Open Scope R_scope.

(** * Real analysis *)
Lemma Rabs_le_iff a b : Rabs a <= b <-> - b <= a <= b.
Proof. split; intros H. - unfold Rabs in H. destruct (Rcase_abs a); lra. - apply Rabs_le. lra. Qed.
Lemma exp_le_mono a b : a <= b -> exp a <= exp b.
Proof. intros [H| ->]; [left; apply exp_increasing; auto|lra]. Qed.
Lemma ln_le_mono a b : 0 < a -> a <= b -> ln a <= ln b.
Proof. intros Ha [H| ->]; [left; apply ln_increasing; auto|lra]. Qed.
(** Log-sum-exp moves by at most the largest change of its arguments. *)
Lemma lse_lip n (w a b : nat -> R) e : (0 < n)%nat -> (forall k, (k < n)%nat -> 0 < w k) -> (forall k, (k < n)%nat -> Rabs (a k - b k) <= e) ->
  Rabs (ln (rsum n (fun k => w k * exp (a k))) - ln (rsum n (fun k => w k * exp (b k)))) <= e.
Proof.
  intros Hn Hw H.
  assert (P: forall c, 0 < rsum n (fun k => w k * exp (c k))) by (intros c; apply rsum_pos; auto; intros; apply Rmult_lt_0_compat; [auto|apply exp_pos]).
  assert (S: forall c d, (forall k, (k < n)%nat -> c k <= d k + e) -> ln (rsum n (fun k => w k * exp (c k))) <= ln (rsum n (fun k => w k * exp (d k))) + e).
  { intros c d Hcd. replace (ln (rsum n (fun k => w k * exp (d k))) + e) with (ln (rsum n (fun k => w k * exp (d k))) + ln (exp e)) by (rewrite ln_exp; reflexivity). rewrite <- ln_mult by (auto; apply exp_pos). apply ln_le_mono; auto.
    rewrite <- rsum_scal_r. apply rsum_le. intros k Hk. rewrite Rmult_assoc, <- exp_plus. apply Rmult_le_compat_l; [left; auto|]. apply exp_le_mono. auto. }
  apply Rabs_le_iff. pose proof (S a b) as S1. pose proof (S b a) as S2.
  assert (forall k, (k < n)%nat -> a k <= b k + e) by (intros k Hk; specialize (H k Hk); apply Rabs_le_iff in H; lra).
  assert (forall k, (k < n)%nat -> b k <= a k + e) by (intros k Hk; specialize (H k Hk); apply Rabs_le_iff in H; lra).
  specialize (S1 H0). specialize (S2 H1). lra.
Qed.
Lemma lse_bound n (w a : nat -> R) B : (0 < n)%nat -> (forall k, (k < n)%nat -> 0 < w k) -> rsum n w = 1 -> (forall k, (k < n)%nat -> Rabs (a k) <= B) ->
  Rabs (ln (rsum n (fun k => w k * exp (a k)))) <= B.
Proof.
  intros Hn Hw Hs H. pose proof (lse_lip n w a (fun _ => 0) B Hn Hw) as L. cbv beta in L. rewrite (rsum_ext n (fun k => w k * exp 0) w) in L by (intros; rewrite exp_0; ring).
  rewrite Hs, ln_1, Rminus_0_r in L. apply L. intros k Hk. rewrite Rminus_0_r. auto.
Qed.
Lemma rsum_term_le n f k : (k < n)%nat -> (forall i, (i < n)%nat -> 0 <= f i) -> f k <= rsum n f.
Proof. intros Hk H. unfold rsum. apply (lsum_term_le f); [apply in_seq; lia|]. intros b Hb. apply in_seq in Hb. apply H. lia. Qed.

Lemma rmaxn_spec n f : (0 < n)%nat -> (exists i, (i < n)%nat /\ rmaxn n f = f i) /\ forall i, (i < n)%nat -> f i <= rmaxn n f.
Proof.
  induction n as [|n IH]; [lia|]. intros _. destruct n as [|n].
  - cbn. split; [exists 0%nat; auto|]. intros i Hi. replace i with 0%nat by lia. lra.
  - destruct IH as [(j & Hj & Ej) Hm]; [lia|]. change (rmaxn (S (S n)) f) with (Rmax (rmaxn (S n) f) (f (S n))). split.
    + unfold Rmax. destruct (Rle_dec _ _); [exists (S n); split; auto; lia|exists j; split; [lia|auto]].
    + intros i Hi. destruct (Nat.eq_dec i (S n)) as [->|]; [apply Rmax_r|]. apply Rle_trans with (rmaxn (S n) f); [apply Hm; lia|apply Rmax_l].
Qed.

(** * Approximation up to a relative and an absolute error *)
Definition close (rho alpha xh x : R) : Prop := Rabs (xh - x) <= rho * x + alpha.
Definition rho_exp (u M : R) : R := exp (2 * u * M) * (1 + u) - 1.
Definition mul_rho (u r1 r2 : R) : R := (1 + r1) * (1 + r2) * (1 + u) - 1.
Definition mul_alpha (u eta r1 a1 r2 a2 : R) : R := (1 + u) * ((1 + r1) * a2 + (1 + r2) * a1 + a1 * a2) + eta.
Definition sum_rho (g r : R) : R := (1 + g) * (1 + r) - 1.
Definition sum_alpha (g : R) (n : nat) (a : R) : R := (1 + g) * (INR n * a).
(** The change of the logarithm. *)
Definition lam (rel : R) : R := - ln (1 - rel).

Section Acc.
Variables (A : arith) (Lam u eta : R) (uw g : nat -> R).
Hypothesis HA : accurate A Lam u eta uw g.
Hypothesis Hu : 0 <= u <= 1.
Hypothesis Heta : 0 <= eta.
Hypothesis Huw : forall n, 0 <= uw n.
Hypothesis Hg : forall n, 0 <= g n.

Lemma rho_exp_nonneg M : 0 <= M -> 0 <= rho_exp u M.
Proof.
  intros HM. unfold rho_exp. assert (1 <= exp (2 * u * M)) by (rewrite <- exp_0 at 1; apply exp_le_mono; apply Rmult_le_pos; lra). nra.
Qed.
Lemma close_exp M l m : l <= m -> Rabs l <= M -> Rabs m <= M -> close (rho_exp u M) eta (fexp A (fsub A l m)) (exp (l - m)).
Proof.
  intros Hlm Hl Hm. apply Rabs_le_iff in Hl. apply Rabs_le_iff in Hm. set (d := fsub A l m).
  pose proof (ac_sub _ _ _ _ _ _ HA l m) as Hd. fold d in Hd. replace (Rabs (l - m)) with (m - l) in Hd by (rewrite Rabs_left1; lra).
  apply Rabs_le_iff in Hd. assert (Hd0: d <= 0) by nra. pose proof (ac_exp _ _ _ _ _ _ HA d Hd0) as He. apply Rabs_le_iff in He.
  set (e := exp (l - m)). pose proof (exp_pos (l - m)) as Pe. fold e in Pe. set (X := exp (2 * u * M)).
  assert (Du: d - (l - m) <= 2 * u * M) by nra. assert (Dl: - (2 * u * M) <= d - (l - m)) by nra.
  assert (E: exp d = e * exp (d - (l - m))) by (unfold e; rewrite <- exp_plus; f_equal; ring).
  assert (U: exp (d - (l - m)) <= X) by (apply exp_le_mono; auto).
  assert (L: / X <= exp (d - (l - m))) by (unfold X; rewrite <- exp_Ropp; apply exp_le_mono; auto).
  assert (PX: 0 < X) by apply exp_pos. assert (IX: X * / X = 1) by (apply Rinv_r; lra).
  assert (L2: 2 - X <= / X).
  { apply Rmult_le_reg_l with X; auto. rewrite IX. pose proof (Rle_0_sqr (X - 1)) as Q. unfold Rsqr in Q. lra. }
  unfold close, rho_exp. fold e X. apply Rabs_le_iff. rewrite E in He. set (z := exp (d - (l - m))) in *.
  assert (Z1: e * z <= e * X) by (apply Rmult_le_compat_l; lra). assert (Z2: e * (2 - X) <= e * z) by (apply Rmult_le_compat_l; lra).
  assert (Z3: u * (e * z) <= u * (e * X)) by (apply Rmult_le_compat_l; lra). lra.
Qed.
Lemma close_mul r1 a1 r2 a2 xh x yh y : 0 <= r1 -> 0 <= a1 -> 0 <= r2 -> 0 <= a2 -> 0 <= x <= 1 -> 0 <= y <= 1 -> close r1 a1 xh x -> close r2 a2 yh y ->
  close (mul_rho u r1 r2) (mul_alpha u eta r1 a1 r2 a2) (fmul A xh yh) (x * y).
Proof.
  intros H1 H2 H3 H4 Hx Hy Cx Cy. unfold close in *.
  assert (P: Rabs (xh * yh - x * y) <= ((1 + r1) * (1 + r2) - 1) * (x * y) + ((1 + r1) * a2 + (1 + r2) * a1 + a1 * a2)).
  { replace (xh * yh - x * y) with ((xh - x) * (yh - y) + x * (yh - y) + y * (xh - x)) by ring.
    eapply Rle_trans; [apply Rabs_triang|]. eapply Rle_trans; [apply Rplus_le_compat_r, Rabs_triang|]. rewrite !Rabs_mult, (Rabs_pos_eq x), (Rabs_pos_eq y) by lra.
    assert (Q: Rabs (xh - x) * Rabs (yh - y) <= (r1 * x + a1) * (r2 * y + a2)) by (apply Rmult_le_compat; auto; apply Rabs_pos).
    assert (Q2: x * Rabs (yh - y) <= x * (r2 * y + a2)) by (apply Rmult_le_compat_l; lra).
    assert (Q3: y * Rabs (xh - x) <= y * (r1 * x + a1)) by (apply Rmult_le_compat_l; lra).
    assert (x * a2 <= a2) by nra. assert (y * a1 <= a1) by nra. assert (r1 * x * a2 <= r1 * a2) by (assert (0 <= r1 * a2) by (apply Rmult_le_pos; auto); nra).
    assert (a1 * (r2 * y) <= r2 * a1) by (assert (0 <= r2 * a1) by (apply Rmult_le_pos; auto); nra). nra. }
  pose proof (ac_mul _ _ _ _ _ _ HA xh yh) as R1. set (K := (1 + r1) * (1 + r2) - 1) in *. set (b := (1 + r1) * a2 + (1 + r2) * a1 + a1 * a2) in *.
  assert (Pxy: 0 <= x * y) by (apply Rmult_le_pos; lra).
  assert (R2: Rabs (xh * yh) <= x * y + (K * (x * y) + b)).
  { replace (xh * yh) with ((xh * yh - x * y) + x * y) by ring. eapply Rle_trans; [apply Rabs_triang|]. rewrite (Rabs_pos_eq (x * y)) by auto. lra. }
  assert (R3: u * Rabs (xh * yh) <= u * (x * y + (K * (x * y) + b))) by (apply Rmult_le_compat_l; lra).
  replace (fmul A xh yh - x * y) with ((fmul A xh yh - xh * yh) + (xh * yh - x * y)) by ring. eapply Rle_trans; [apply Rabs_triang|].
  unfold mul_rho, mul_alpha. fold b. replace ((1 + r1) * (1 + r2) * (1 + u) - 1) with (K + u * (1 + K)) by (unfold K; ring).
  replace ((K + u * (1 + K)) * (x * y) + ((1 + u) * b + eta)) with (u * (x * y + (K * (x * y) + b)) + eta + (K * (x * y) + b)) by ring. lra.
Qed.
Lemma close_sum n rho alpha fh f : 0 <= rho -> 0 <= alpha -> (forall k, (k < n)%nat -> 0 <= f k) -> (forall k, (k < n)%nat -> close rho alpha (fh k) (f k)) ->
  close (sum_rho (g n) rho) (sum_alpha (g n) n alpha) (fsum A n fh) (rsum n f).
Proof.
  intros Hr Ha Hf H. unfold close in *. pose proof (ac_sum _ _ _ _ _ _ HA n fh) as S. pose proof (Hg n) as G.
  assert (D: Rabs (rsum n fh - rsum n f) <= rho * rsum n f + INR n * alpha).
  { apply Rle_trans with (rsum n (fun k => rho * f k + alpha)); [|rewrite rsum_plus, rsum_scal_l, rsum_const; lra].
    clear S. clear Hf G. induction n; [rewrite !rsum_0, Rminus_0_r, Rabs_R0; lra|]. rewrite !rsum_S.
    replace (rsum n fh + fh n - (rsum n f + f n)) with ((rsum n fh - rsum n f) + (fh n - f n)) by ring. eapply Rle_trans; [apply Rabs_triang|].
    apply Rplus_le_compat; [apply IHn; auto|apply H; lia]. }
  assert (B: rsum n (fun k => Rabs (fh k)) <= (1 + rho) * rsum n f + INR n * alpha).
  { apply Rle_trans with (rsum n (fun k => (1 + rho) * f k + alpha)); [|rewrite rsum_plus, rsum_scal_l, rsum_const; lra].
    apply rsum_le. intros k Hk. replace (fh k) with ((fh k - f k) + f k) by ring. eapply Rle_trans; [apply Rabs_triang|]. rewrite (Rabs_pos_eq (f k)) by auto.
    specialize (H k Hk). lra. }
  replace (fsum A n fh - rsum n f) with ((fsum A n fh - rsum n fh) + (rsum n fh - rsum n f)) by ring. eapply Rle_trans; [apply Rabs_triang|].
  unfold sum_rho, sum_alpha. assert (g n * rsum n (fun k => Rabs (fh k)) <= g n * ((1 + rho) * rsum n f + INR n * alpha)) by (apply Rmult_le_compat_l; auto). lra.
Qed.
Lemma close_ln rho alpha wmin Ph P : 0 <= rho -> 0 <= alpha -> 0 < wmin <= P -> close rho alpha Ph P -> rho + alpha / wmin < 1 ->
  0 < Ph /\ Rabs (ln Ph - ln P) <= lam (rho + alpha / wmin).
Proof.
  intros Hr Ha Hw C Hrel. set (rel := rho + alpha / wmin) in *. assert (P0: 0 < P) by lra.
  assert (R0: 0 <= rel) by (unfold rel; assert (0 <= alpha / wmin) by (apply Rmult_le_pos; [auto|left; apply Rinv_0_lt_compat; lra]); lra).
  assert (D: Rabs (Ph - P) <= rel * P).
  { eapply Rle_trans; [exact C|]. unfold rel. assert (alpha <= alpha / wmin * P); [|lra]. unfold Rdiv. rewrite Rmult_assoc.
    rewrite <- (Rmult_1_r alpha) at 1. apply Rmult_le_compat_l; auto. apply Rmult_le_reg_l with wmin; [lra|]. rewrite <- Rmult_assoc, Rinv_r by lra. lra. }
  apply Rabs_le_iff in D. assert (L: (1 - rel) * P <= Ph) by lra. assert (U: Ph <= (1 + rel) * P) by lra.
  assert (Pp: 0 < Ph) by (eapply Rlt_le_trans; [|exact L]; apply Rmult_lt_0_compat; lra). split; auto.
  assert (Ll: ln (1 - rel) + ln P <= ln Ph) by (rewrite <- ln_mult by lra; apply ln_le_mono; auto; apply Rmult_lt_0_compat; lra).
  assert (Lu: ln Ph <= ln (1 + rel) + ln P) by (rewrite <- ln_mult by lra; apply ln_le_mono; auto).
  assert (Q: ln (1 + rel) + ln (1 - rel) <= 0) by (rewrite <- ln_mult by lra; rewrite <- ln_1; apply ln_le_mono; [apply Rmult_lt_0_compat; lra|nra]).
  unfold lam. apply Rabs_le_iff. lra.
Qed.
Lemma fadd_err M1 M2 a b x y e1 e2 : Rabs x <= M1 -> Rabs y <= M2 -> Rabs (a - x) <= e1 -> Rabs (b - y) <= e2 ->
  Rabs (fadd A a b - (x + y)) <= e1 + e2 + u * (M1 + M2 + e1 + e2).
Proof.
  intros H1 H2 H3 H4. pose proof (ac_add _ _ _ _ _ _ HA a b) as H. apply Rabs_le_iff in H1. apply Rabs_le_iff in H2. apply Rabs_le_iff in H3. apply Rabs_le_iff in H4.
  assert (S: Rabs (a + b) <= M1 + M2 + e1 + e2) by (apply Rabs_le_iff; lra).
  assert (S2: u * Rabs (a + b) <= u * (M1 + M2 + e1 + e2)) by (apply Rmult_le_compat_l; lra). apply Rabs_le_iff in H. apply Rabs_le_iff. lra.
Qed.
Lemma flog_err x y e W : 0 < x -> Rabs (ln x - y) <= e -> Rabs y <= W -> Rabs (flog A x - y) <= e + u * (W + e).
Proof.
  intros Hx H1 H2. pose proof (ac_log _ _ _ _ _ _ HA x Hx) as H. apply Rabs_le_iff in H1. apply Rabs_le_iff in H2.
  assert (S: Rabs (ln x) <= W + e) by (apply Rabs_le_iff; lra). assert (S2: u * Rabs (ln x) <= u * (W + e)) by (apply Rmult_le_compat_l; lra).
  apply Rabs_le_iff in H. apply Rabs_le_iff. lra.
Qed.

(** * torch.logsumexp *)
Definition lse_rel (n : nat) (M : R) : R := sum_rho (g n) (rho_exp u M) + sum_alpha (g n) n eta / 1.
Definition log_tau (rel W : R) : R := lam rel + u * (W + lam rel).
Definition lse_tau (n : nat) (M : R) : R :=
  let e0 := log_tau (lse_rel n M) (ln (INR n)) in e0 + u * (ln (INR n) + M + e0).
Lemma flse_err n x M : (0 < n)%nat -> (forall i, (i < n)%nat -> Rabs (x i) <= M) -> lse_rel n M < 1 ->
  Rabs (flse A n x - ln (rsum n (fun i => exp (x i)))) <= lse_tau n M.
Proof.
  intros Hn Hx Hrel. destruct (rmaxn_spec n x Hn) as [(i0 & Hi0 & Em) Hm]. unfold flse. set (m := rmaxn n x) in *.
  assert (HM: 0 <= M) by (eapply Rle_trans; [apply Rabs_pos|apply (Hx i0 Hi0)]).
  set (P := rsum n (fun i => exp (x i - m))). set (Ph := fsum A n (fun i => fexp A (fsub A (x i) m))).
  assert (C: close (sum_rho (g n) (rho_exp u M)) (sum_alpha (g n) n eta) Ph P).
  { apply close_sum; auto; [apply rho_exp_nonneg; auto|intros; left; apply exp_pos|]. intros k Hk. apply close_exp; auto. rewrite Em. auto. }
  assert (P1: 1 <= P).
  { unfold P. apply Rle_trans with (exp (x i0 - m)); [rewrite Em, Rminus_eq_0, exp_0; lra|]. apply (rsum_term_le n (fun i => exp (x i - m))); auto. intros; left; apply exp_pos. }
  assert (Pn: P <= INR n).
  { unfold P. apply Rle_trans with (rsum n (fun _ => 1)); [|rewrite rsum_const; lra]. apply rsum_le. intros i Hi. rewrite <- exp_0. apply exp_le_mono. specialize (Hm i Hi). lra. }
  destruct (close_ln (sum_rho (g n) (rho_exp u M)) (sum_alpha (g n) n eta) 1 Ph P) as [Pp L]; auto; try lra.
  { unfold sum_rho. pose proof (Hg n). pose proof (rho_exp_nonneg M HM). nra. }
  { unfold sum_alpha. pose proof (Hg n). apply Rmult_le_pos; [lra|]. apply Rmult_le_pos; [apply pos_INR|auto]. }
  assert (LP: Rabs (ln P) <= ln (INR n)).
  { rewrite Rabs_pos_eq; [apply ln_le_mono; lra|]. rewrite <- ln_1. apply ln_le_mono; lra. }
  pose proof (flog_err Ph (ln P) _ (ln (INR n)) Pp L LP) as F.
  assert (X: ln (rsum n (fun i => exp (x i))) = ln P + m).
  { replace (ln P + m) with (ln P + ln (exp m)) by (rewrite ln_exp; reflexivity). rewrite <- ln_mult by (try apply exp_pos; lra). f_equal. unfold P. rewrite <- rsum_scal_r. apply rsum_ext. intros i Hi. rewrite <- exp_plus. f_equal. ring. }
  rewrite X. pose proof (fadd_err (ln (INR n)) M (flog A Ph) m (ln P) m (log_tau (lse_rel n M) (ln (INR n))) 0 LP) as Q. unfold lse_tau. fold (lse_rel n M) in F.
  eapply Rle_trans; [apply Q; [rewrite Em; apply Hx; auto|exact F|rewrite Rminus_eq_0, Rabs_R0; lra]|]. cbv zeta. lra.
Qed.

(** * A weighted sum in the log domain: SumLayer, MixingLayer *)
Definition add_tau (s : nat) (M W : R) : R := uw s + u * (M + W + uw s).
Definition wsum_rel (s : nat) (M W : R) : R := lse_rel s (M + W + add_tau s M W).
Definition wsum_tau (s : nat) (M W : R) : R := lse_tau s (M + W + add_tau s M W) + add_tau s M W.
Lemma wmin_abs w wmin : 0 < wmin <= w -> w <= 1 -> Rabs (ln w) <= - ln wmin.
Proof.
  intros Hw H1. rewrite Rabs_left1.
  - pose proof (ln_le_mono wmin w). lra.
  - rewrite <- ln_1. apply ln_le_mono; lra.
Qed.
Lemma soft_le1 n lg k : (k < n)%nat -> rsoftmax n lg k <= 1.
Proof.
  intros Hk. rewrite <- (rsoftmax_sum n lg) by lia. apply rsum_term_le; auto. intros; left; apply rsoftmax_pos; lia.
Qed.
Lemma fwsum_err s lg x M wmin : (0 < s)%nat -> (forall k, (k < s)%nat -> Rabs (lg k) <= Lam) -> 0 < wmin -> (forall k, (k < s)%nat -> wmin <= rsoftmax s lg k) -> (forall i, (i < s)%nat -> Rabs (x i) <= M) ->
  wsum_rel s M (- ln wmin) < 1 ->
  Rabs (fwsum A s lg x - ln (rsum s (fun k => rsoftmax s lg k * exp (x k)))) <= wsum_tau s M (- ln wmin).
Proof.
  intros Hs HL Hw Hl Hx Hrel. set (W := - ln wmin) in *. unfold fwsum. set (y := fun i => fadd A (x i) (flogsoftmax A s lg i)).
  assert (HW: forall i, (i < s)%nat -> Rabs (ln (rsoftmax s lg i)) <= W) by (intros i Hi; apply wmin_abs; [split; auto|apply soft_le1; auto]).
  assert (Hy: forall i, (i < s)%nat -> Rabs (y i - (x i + ln (rsoftmax s lg i))) <= add_tau s M W).
  { intros i Hi. eapply Rle_trans; [apply (fadd_err M W _ _ _ _ 0 (uw s)); auto; [rewrite Rminus_eq_0, Rabs_R0; lra|apply (ac_lsoft _ _ _ _ _ _ HA); auto]|]. unfold add_tau. lra. }
  assert (By: forall i, (i < s)%nat -> Rabs (y i) <= M + W + add_tau s M W).
  { intros i Hi. specialize (Hy i Hi). specialize (Hx i Hi). specialize (HW i Hi). apply Rabs_le_iff in Hy. apply Rabs_le_iff in Hx. apply Rabs_le_iff in HW. apply Rabs_le_iff. lra. }
  pose proof (flse_err s y _ Hs By Hrel) as F.
  assert (L: Rabs (ln (rsum s (fun i => exp (y i))) - ln (rsum s (fun k => rsoftmax s lg k * exp (x k)))) <= add_tau s M W).
  { rewrite (rsum_ext s (fun i => exp (y i)) (fun i => 1 * exp (y i))) by (intros; ring).
    rewrite (rsum_ext s (fun k => rsoftmax s lg k * exp (x k)) (fun k => 1 * exp (x k + ln (rsoftmax s lg k)))).
    - apply lse_lip; auto. intros; lra.
    - intros k Hk. rewrite exp_plus, exp_ln by (apply rsoftmax_pos; auto). ring. }
  apply Rabs_le_iff in F. apply Rabs_le_iff in L. unfold wsum_tau. apply Rabs_le_iff. lra.
Qed.
(** * LinsumLayer *)
Definition lin_M (M : R) : R := 2 * M + u * (2 * M).
Definition linsum_rel (s : nat) (M W : R) : R := wsum_rel s (lin_M M) W.
Definition linsum_tau (s : nat) (M W : R) : R := wsum_tau s (lin_M M) W + u * (2 * M).
Lemma flinsum_err s lg l r M wmin : (0 < s)%nat -> (forall k, (k < s)%nat -> Rabs (lg k) <= Lam) -> 0 < wmin -> (forall k, (k < s)%nat -> wmin <= rsoftmax s lg k) ->
  (forall i, (i < s)%nat -> Rabs (l i) <= M) -> (forall i, (i < s)%nat -> Rabs (r i) <= M) -> linsum_rel s M (- ln wmin) < 1 ->
  Rabs (flinsum A s lg l r - ln (rsum s (fun k => rsoftmax s lg k * exp (l k + r k)))) <= linsum_tau s M (- ln wmin).
Proof.
  intros Hs HL Hw Hl Hx Hy Hrel. set (y := fun i => fadd A (l i) (r i)).
  assert (Ey: forall i, (i < s)%nat -> Rabs (y i - (l i + r i)) <= u * (2 * M)).
  { intros i Hi. eapply Rle_trans; [apply (fadd_err M M _ _ _ _ 0 0); auto; rewrite Rminus_eq_0, Rabs_R0; lra|]. lra. }
  assert (By: forall i, (i < s)%nat -> Rabs (y i) <= lin_M M).
  { intros i Hi. specialize (Ey i Hi). specialize (Hx i Hi). specialize (Hy i Hi). unfold lin_M. apply Rabs_le_iff in Ey. apply Rabs_le_iff in Hx. apply Rabs_le_iff in Hy. apply Rabs_le_iff. lra. }
  pose proof (fwsum_err s lg y (lin_M M) wmin Hs HL Hw Hl By Hrel) as F. change (flinsum A s lg l r) with (fwsum A s lg y).
  pose proof (lse_lip s (rsoftmax s lg) y (fun i => l i + r i) _ Hs (fun k _ => rsoftmax_pos s lg k Hs) Ey) as L.
  apply Rabs_le_iff in F. apply Rabs_le_iff in L. unfold linsum_tau. apply Rabs_le_iff. lra.
Qed.

(** * EinsumLayer *)
Definition ein_rho2 (M : R) : R := mul_rho u (rho_exp u M) (rho_exp u M).
Definition ein_alpha2 (M : R) : R := mul_alpha u eta (rho_exp u M) eta (rho_exp u M) eta.
Definition ein_rho3 (s : nat) (M : R) : R := mul_rho u (ein_rho2 M) (uw (s * s)).
Definition ein_alpha3 (s : nat) (M : R) : R := mul_alpha u eta (ein_rho2 M) (ein_alpha2 M) (uw (s * s)) eta.
Definition ein_rel (s : nat) (M wmin : R) : R := sum_rho (g (s * s)) (ein_rho3 s M) + sum_alpha (g (s * s)) (s * s) (ein_alpha3 s M) / wmin.
Definition ein_tau (s : nat) (M wmin : R) : R :=
  let W := - ln wmin in
  let e0 := log_tau (ein_rel s M wmin) W in
  let e1 := e0 + u * (W + M + e0) in
  e1 + u * (W + M + M + e1).
Lemma mul_rho_nonneg r1 r2 : 0 <= r1 -> 0 <= r2 -> 0 <= mul_rho u r1 r2.
Proof. intros. unfold mul_rho. assert (1 <= (1 + r1) * (1 + r2)) by nra. nra. Qed.
Lemma mul_alpha_nonneg r1 a1 r2 a2 : 0 <= r1 -> 0 <= a1 -> 0 <= r2 -> 0 <= a2 -> 0 <= mul_alpha u eta r1 a1 r2 a2.
Proof.
  intros. unfold mul_alpha. assert (0 <= (1 + r1) * a2) by (apply Rmult_le_pos; lra). assert (0 <= (1 + r2) * a1) by (apply Rmult_le_pos; lra).
  assert (0 <= a1 * a2) by (apply Rmult_le_pos; lra). assert (0 <= (1 + u) * ((1 + r1) * a2 + (1 + r2) * a1 + a1 * a2)) by (apply Rmult_le_pos; lra). lra.
Qed.
Lemma feinsum_err s lg l r M wmin : (0 < s)%nat -> (forall k, (k < s * s)%nat -> Rabs (lg k) <= Lam) -> 0 < wmin -> (forall k, (k < s * s)%nat -> wmin <= rsoftmax (s * s) lg k) ->
  (forall i, (i < s)%nat -> Rabs (l i) <= M) -> (forall i, (i < s)%nat -> Rabs (r i) <= M) -> ein_rel s M wmin < 1 ->
  Rabs (feinsum A s lg l r - ln (rsum (s * s) (fun k => rsoftmax (s * s) lg k * exp (l (k / s)%nat + r (k mod s)%nat)))) <= ein_tau s M wmin.
Proof.
  intros Hs HL Hw Hl Hx Hy Hrel. destruct (rmaxn_spec s l Hs) as [(i0 & Hi0 & El) Ml]. destruct (rmaxn_spec s r Hs) as [(j0 & Hj0 & Er) Mr].
  unfold feinsum. set (ml := rmaxn s l) in *. set (mr := rmaxn s r) in *. set (n := (s * s)%nat) in *. assert (Hn: (0 < n)%nat) by (unfold n; nia).
  assert (HM: 0 <= M) by (eapply Rle_trans; [apply Rabs_pos|apply (Hx i0 Hi0)]). pose proof (rho_exp_nonneg M HM) as R1.
  assert (Kd: forall k, (k < n)%nat -> (k / s < s)%nat /\ (k mod s < s)%nat).
  { intros k Hk. split; [apply Nat.div_lt_upper_bound; [lia|exact Hk]|apply Nat.mod_upper_bound; lia]. }
  set (f := fun k => exp (l (k / s)%nat - ml) * exp (r (k mod s)%nat - mr) * rsoftmax n lg k).
  set (Ph := fsum A n _). set (P := rsum n f).
  assert (X1: forall i, (i < s)%nat -> 0 <= exp (l i - ml) <= 1) by (intros i Hi; split; [left; apply exp_pos|rewrite <- exp_0; apply exp_le_mono; specialize (Ml i Hi); lra]).
  assert (Y1: forall i, (i < s)%nat -> 0 <= exp (r i - mr) <= 1) by (intros i Hi; split; [left; apply exp_pos|rewrite <- exp_0; apply exp_le_mono; specialize (Mr i Hi); lra]).
  assert (S0: forall k, (k < n)%nat -> 0 < rsoftmax n lg k <= 1) by (intros k Hk; split; [apply rsoftmax_pos; auto|apply soft_le1; auto]).
  assert (F0: forall k, (k < n)%nat -> 0 <= f k).
  { intros k Hk. unfold f. destruct (Kd k Hk). apply Rmult_le_pos; [apply Rmult_le_pos; [apply X1|apply Y1]; auto|left; apply S0; auto]. }
  assert (C: close (sum_rho (g n) (ein_rho3 s M)) (sum_alpha (g n) n (ein_alpha3 s M)) Ph P).
  { apply close_sum; auto; [repeat (apply mul_rho_nonneg; auto)|apply mul_alpha_nonneg; auto; [apply mul_rho_nonneg; auto|apply mul_alpha_nonneg; auto]|].
    intros k Hk. destruct (Kd k Hk) as [K1 K2]. unfold f. apply close_mul; auto; [apply mul_rho_nonneg; auto|apply mul_alpha_nonneg; auto| |destruct (S0 k Hk); lra| |apply (ac_soft _ _ _ _ _ _ HA); auto].
    - destruct (X1 _ K1), (Y1 _ K2). split; [apply Rmult_le_pos; auto|]. rewrite <- (Rmult_1_r 1). apply Rmult_le_compat; auto.
    - apply close_mul; auto; apply close_exp; auto; [rewrite El; auto|rewrite Er; auto]. }
  assert (Pw: wmin <= P).
  { pose (k0 := (i0 * s + j0)%nat). assert (Hk0: (k0 < n)%nat) by (unfold k0, n; nia).
    assert (Ed: (k0 / s = i0)%nat) by (unfold k0; rewrite Nat.div_add_l by lia; rewrite Nat.div_small by auto; lia).
    assert (Emd: (k0 mod s = j0)%nat) by (unfold k0; rewrite Nat.add_comm, Nat.mod_add by lia; apply Nat.mod_small; auto).
    apply Rle_trans with (f k0); [|apply rsum_term_le; auto]. unfold f. rewrite Ed, Emd, El, Er, !Rminus_eq_0, exp_0, !Rmult_1_l. auto. }
  assert (P1: P <= 1).
  { unfold P. rewrite <- (rsoftmax_sum n lg Hn). apply rsum_le. intros k Hk. destruct (Kd k Hk) as [K1 K2]. unfold f. destruct (X1 _ K1), (Y1 _ K2), (S0 k Hk).
    assert (exp (l (k / s)%nat - ml) * exp (r (k mod s)%nat - mr) <= 1) by (rewrite <- (Rmult_1_r 1); apply Rmult_le_compat; auto). nra. }
  destruct (close_ln (sum_rho (g n) (ein_rho3 s M)) (sum_alpha (g n) n (ein_alpha3 s M)) wmin Ph P) as [Pp L]; auto.
  { unfold sum_rho. pose proof (Hg n). assert (0 <= ein_rho3 s M) by (repeat (apply mul_rho_nonneg; auto)). nra. }
  { unfold sum_alpha. pose proof (Hg n). apply Rmult_le_pos; [lra|]. apply Rmult_le_pos; [apply pos_INR|]. apply mul_alpha_nonneg; auto; [apply mul_rho_nonneg; auto|apply mul_alpha_nonneg; auto]. }
  assert (LP: Rabs (ln P) <= - ln wmin) by (apply wmin_abs; auto). set (W := - ln wmin) in *.
  pose proof (flog_err Ph (ln P) _ W Pp L LP) as F.
  assert (E: ln (rsum n (fun k => rsoftmax n lg k * exp (l (k / s)%nat + r (k mod s)%nat))) = ln P + ml + mr).
  { replace (ln P + ml + mr) with (ln P + ln (exp (ml + mr))) by (rewrite ln_exp; ring). rewrite <- ln_mult by (try apply exp_pos; lra). f_equal. unfold P. rewrite <- rsum_scal_r.
    apply rsum_ext. intros k Hk. unfold f. replace (l (k / s)%nat + r (k mod s)%nat) with ((l (k / s)%nat - ml) + (r (k mod s)%nat - mr) + (ml + mr)) by ring. rewrite !exp_plus. ring. }
  rewrite E. unfold ein_tau. fold W. set (e0 := log_tau (ein_rel s M wmin) W).
  assert (Bml: Rabs ml <= M) by (rewrite El; auto). assert (Bmr: Rabs mr <= M) by (rewrite Er; auto).
  assert (Z: forall z : R, Rabs (z - z) <= 0) by (intros z; rewrite Rminus_eq_0, Rabs_R0; lra).
  pose proof (fadd_err W M (flog A Ph) ml (ln P) ml e0 0 LP Bml F (Z ml)) as Q1.
  assert (B1: Rabs (ln P + ml) <= W + M) by (eapply Rle_trans; [apply Rabs_triang|lra]).
  pose proof (fadd_err (W + M) M (fadd A (flog A Ph) ml) mr (ln P + ml) mr (e0 + 0 + u * (W + M + e0 + 0)) 0 B1 Bmr Q1 (Z mr)) as Q2.
  eapply Rle_trans; [exact Q2|]. rewrite !Rplus_0_r. lra.
Qed.
End Acc.
