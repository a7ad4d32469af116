(** Facts about the parameters of the leaves: closed forms, derivatives and bounds. *)
From Coq Require Import List Arith Lia Bool ZArith Reals Lra FunctionalExtensionality.
Import ListNotations.
From Verif Require Import Base RSum Num Tensor Leaf RefLeaf Family RefFamily RefGrad PropLeaf Step LeafStep.
Local Open Scope R_scope.

(** * Saturation *)
(** The parameter from which on the clamped probability no longer changes: the logit of 1 - 2^-23 *)
Definition saturation : R := ln (2 ^ 23 - 1).
Lemma pow23 : 1 < 2 ^ 23 - 1.
Proof. assert (2 ^ 1 < 2 ^ 23) by (apply Rlt_pow; [lra|lia]). simpl (2 ^ 1) in H. lra. Qed.
Lemma saturation_pos : 0 < saturation.
Proof. unfold saturation. rewrite <- ln_1. apply ln_increasing; [lra|apply pow23]. Qed.
Lemma feps_eq : feps * (2 ^ 23 - 1) = 1 - feps.
Proof. unfold feps. rewrite Rmult_minus_distr_l, Rinv_l by (apply pow_nonzero; lra). ring. Qed.
Lemma rsig_exp x : rsigmoid x = exp x / (1 + exp x).
Proof. unfold rsigmoid. rewrite exp_Ropp. pose proof (exp_pos x). field. lra. Qed.
Lemma one_minus_sig x : 1 - rsigmoid x = / (1 + exp x).
Proof. rewrite rsig_exp. pose proof (exp_pos x). field. lra. Qed.
Lemma rsig_mono x y : x < y -> rsigmoid x < rsigmoid y.
Proof.
  intros H. apply exp_increasing in H. assert (/ (1 + exp y) < / (1 + exp x)); [|rewrite <- !one_minus_sig in H0; lra]. pose proof (exp_pos x). pose proof (exp_pos y). apply Rinv_lt_contravar; [nra|lra].
Qed.
Lemma rsig_top : rsigmoid saturation = 1 - feps.
Proof.
  unfold saturation. rewrite rsig_exp, exp_ln by (pose proof pow23; lra). rewrite <- feps_eq. unfold feps. pose proof pow23. field.
Qed.
Lemma rsig_bottom : rsigmoid (- saturation) = feps.
Proof. assert (1 - rsigmoid (- saturation) = 1 - feps); [|lra]. rewrite <- rsig_top. rewrite one_minus_sig. unfold rsigmoid. reflexivity. Qed.
Definition clip (x : R) : R := Rmin (Rmax x (- saturation)) saturation.
Lemma logit_clip x : rlogit (rsigmoid x) = clip x.
Proof.
  assert (LG: forall y, ln (rsigmoid y) - ln (1 + - rsigmoid y) = y).
  { intros y. pose proof (exp_pos y). change (1 + - rsigmoid y) with (1 - rsigmoid y). rewrite one_minus_sig, rsig_exp. unfold Rdiv. rewrite ln_mult, ln_exp; auto; [lra|apply Rinv_0_lt_compat; lra]. }
  pose proof saturation_pos as SP. unfold rlogit. cbv zeta. unfold clip, clamp_probs.
  assert (MO: forall a b, a <= b -> rsigmoid a <= rsigmoid b) by (intros a b [H| ->]; [left; apply rsig_mono; auto|lra]).
  rewrite <- rsig_top, <- rsig_bottom. set (s := saturation) in *.
  destruct (Rle_dec x (- s)) as [H1|H1]; [|destruct (Rle_dec x s) as [H2|H2]].
  - rewrite (Rmax_right (rsigmoid x)) by (apply MO; auto). rewrite (Rmax_right x) by auto. rewrite !Rmin_left by (try apply MO; lra). apply LG.
  - rewrite (Rmax_left (rsigmoid x)) by (apply MO; lra). rewrite (Rmax_left x) by lra. rewrite !Rmin_left by (try apply MO; lra). apply LG.
  - rewrite (Rmax_left (rsigmoid x)) by (apply MO; lra). rewrite (Rmax_left x) by lra. rewrite !Rmin_right by (try apply MO; lra). apply LG.
Qed.
Lemma clip_in x : Rabs x <= saturation -> clip x = x.
Proof. intros H. unfold Rabs in H. pose proof saturation_pos. unfold clip, Rmin, Rmax. destruct (Rcase_abs x), (Rle_dec x _), (Rle_dec _ saturation); lra. Qed.
Lemma clip_low x : x <= - saturation -> clip x = - saturation.
Proof. intros H. pose proof saturation_pos. unfold clip. rewrite Rmax_right, Rmin_left; lra. Qed.
Lemma clip_high x : saturation <= x -> clip x = saturation.
Proof. intros H. pose proof saturation_pos. unfold clip. rewrite Rmax_left, Rmin_right; lra. Qed.
Lemma clip_lip x y : Rabs (clip x - clip y) <= Rabs (x - y).
Proof.
  pose proof saturation_pos. unfold clip, Rmin, Rmax, Rabs. destruct (Rle_dec x _), (Rle_dec y _), (Rcase_abs (x - y)); repeat destruct (Rle_dec _ saturation); destruct (Rcase_abs _); lra.
Qed.

(** * Bernoulli and Binomial *)
Definition softplus (x : R) : R := ln (1 + exp x).
Lemma bernoulli_closed x v : (v < 2)%nat -> bernoulli_lp (rsigmoid x) v = Fin (INR v * clip x - 1 * softplus (clip x)).
Proof.
  intros Hv. rewrite bernoulli_fin. f_equal. unfold rbernoulli. cbv zeta. rewrite logit_clip. set (l := clip x).
  assert (A: Rmax (- l) 0 + ln (1 + exp (- Rabs l)) = ln (1 + exp (- l))) by (rewrite <- (softplus_eq (- l)), Rabs_Ropp; reflexivity). rewrite A.
  assert (S: softplus l = l + ln (1 + exp (- l))).
  { unfold softplus. rewrite <- (ln_exp l) at 2. rewrite <- ln_mult; [|apply exp_pos|pose proof (exp_pos (- l)); lra]. f_equal. rewrite Rmult_plus_distr_l, Rmult_1_r, <- exp_plus, Rplus_opp_r, exp_0. ring. }
  rewrite S. ring.
Qed.
Lemma binomial_closed n x v : binomial_lp n (rsigmoid x) v = Fin (INR v * clip x - INR n * softplus (clip x) + (lfact n - lfact v - lfact (n - v))).
Proof.
  rewrite binomial_fin. f_equal. unfold rbinomial. cbv zeta. rewrite logit_clip. set (l := clip x).
  replace (INR n * Rmax l 0 + INR n * ln (1 + exp (- Rabs l))) with (INR n * softplus l) by (unfold softplus; rewrite <- softplus_eq; ring). ring.
Qed.

(** * Derivatives *)
Lemma dlim_local (f h : R -> R) x d e : 0 < e -> (forall t, Rabs (t - x) < e -> f t = h t) -> derivable_pt_lim f x d -> derivable_pt_lim h x d.
Proof.
  intros He H HD eps Heps. destruct (HD eps Heps) as (del & Hdel). assert (P: 0 < Rmin del e) by (apply Rmin_pos; auto; apply cond_pos). exists (mkposreal _ P). cbn.
  intros k Hk Hlt. pose proof (Rmin_l del e). pose proof (Rmin_r del e). rewrite <- !H; [apply Hdel; auto; lra| |].
  - unfold Rminus. rewrite Rplus_opp_r, Rabs_R0. auto.
  - replace (x + k - x) with k by ring. lra.
Qed.
Lemma dlim_line a w : derivable_pt_lim (fun t => a + t * w) 0 w.
Proof.
  apply (dlim_eq 0 _ (0 + (1 * w + 0 * 0))); [ring|]. apply (derivable_pt_lim_plus (fun _ => a) (fun t => t * w)); [apply derivable_pt_lim_const|].
  apply (derivable_pt_lim_mult (fun t => t) (fun _ => w)); [apply derivable_pt_lim_id|apply derivable_pt_lim_const].
Qed.
Lemma dlim_softplus x : derivable_pt_lim softplus x (rsigmoid x).
Proof.
  unfold softplus. pose proof (exp_pos x). eapply dlim_eq; [|apply (derivable_pt_lim_comp (fun t => 1 + exp t) ln x (0 + exp x) (/ (1 + exp x)))].
  - rewrite rsig_exp. field. lra.
  - apply (derivable_pt_lim_plus (fun _ => 1) exp); [apply derivable_pt_lim_const|apply derivable_pt_lim_exp].
  - apply derivable_pt_lim_ln. lra.
Qed.
(** Inside the clamp: the slope; outside: none *)
Lemma dlim_clip x : Rabs x <> saturation -> derivable_pt_lim clip x (if Rlt_dec (Rabs x) saturation then 1 else 0).
Proof.
  intros HN. destruct (Rlt_dec (Rabs x) saturation) as [H|H].
  - apply (dlim_local (fun t => t) clip x 1 (saturation - Rabs x)); [lra| |apply derivable_pt_lim_id]. intros t Ht. symmetry. apply clip_in.
    replace t with ((t - x) + x) by ring. eapply Rle_trans; [apply Rabs_triang|lra].
  - assert (G: saturation < Rabs x) by lra. apply (dlim_local (fun _ => clip x) clip x 0 (Rabs x - saturation)); [lra| |apply derivable_pt_lim_const]. intros t Ht.
    pose proof saturation_pos. unfold Rabs in G, Ht. destruct (Rcase_abs x), (Rcase_abs (t - x)); try lra.
    + rewrite !clip_low; lra.
    + rewrite !clip_low; lra.
    + rewrite !clip_high; lra.
    + rewrite !clip_high; lra.
Qed.
Definition logit_score (n a x : R) : R := if Rlt_dec (Rabs x) saturation then a - n * rsigmoid x else 0.
Lemma dlim_logit n a b x w : Rabs x <> saturation -> derivable_pt_lim (fun t => a * clip (x + t * w) - n * softplus (clip (x + t * w)) + b) 0 (logit_score n a x * w).
Proof.
  intros HN. set (s := if Rlt_dec (Rabs x) saturation then 1 else 0).
  assert (DC: derivable_pt_lim (fun t => clip (x + t * w)) 0 (s * w)).
  { apply (derivable_pt_lim_comp (fun t => x + t * w) clip 0 w s); [apply dlim_line|]. rewrite Rmult_0_l, Rplus_0_r. apply dlim_clip; auto. }
  assert (DS: derivable_pt_lim (fun t => softplus (clip (x + t * w))) 0 (rsigmoid (clip x) * (s * w))).
  { apply (derivable_pt_lim_comp (fun t => clip (x + t * w)) softplus 0 (s * w) (rsigmoid (clip x))); auto. rewrite Rmult_0_l, Rplus_0_r. apply dlim_softplus. }
  eapply dlim_eq; [|apply (derivable_pt_lim_plus (fun t => a * clip (x + t * w) - n * softplus (clip (x + t * w))) (fun _ => b)); [|apply derivable_pt_lim_const];
    apply (derivable_pt_lim_minus (fun t => a * clip (x + t * w)) (fun t => n * softplus (clip (x + t * w))));
    [apply (derivable_pt_lim_scal (fun t => clip (x + t * w)) a), DC|apply (derivable_pt_lim_scal (fun t => softplus (clip (x + t * w))) n), DS]].
  unfold logit_score, s. destruct (Rlt_dec (Rabs x) saturation); [rewrite clip_in by lra; ring|ring].
Qed.
Lemma dlim_categorical K (th w : nat -> R) v : (v < K)%nat ->
  derivable_pt_lim (fun t => rlog_softmax K (fun j => th j + t * w j) v) 0 (rsum K (fun j => ((if (v =? j)%nat then 1 else 0) - rsoftmax K th j) * w j)).
Proof.
  intros Hv. unfold rlog_softmax.
  assert (P: 0 < rsum K (fun j => exp (th j + 0 * w j))) by (apply rsumexp_pos; lia).
  assert (DE: derivable_pt_lim (fun t => rsum K (fun j => exp (th j + t * w j))) 0 (rsum K (fun j => exp (th j) * w j))).
  { apply (dlim_rsum 0 K (fun j t => exp (th j + t * w j))). intros j _. apply (derivable_pt_lim_comp (fun t => th j + t * w j) exp 0 (w j) (exp (th j))); [apply dlim_line|].
    rewrite Rmult_0_l, Rplus_0_r. apply derivable_pt_lim_exp. }
  eapply dlim_eq; [|apply (derivable_pt_lim_minus (fun t => th v + t * w v) (fun t => ln (rsum K (fun j => exp (th j + t * w j))))); [apply dlim_line|];
    apply (derivable_pt_lim_comp (fun t => rsum K (fun j => exp (th j + t * w j))) ln 0 _ (/ rsum K (fun j => exp (th j + 0 * w j))) DE); apply derivable_pt_lim_ln; exact P].
  assert (Q: rsum K (fun j => exp (th j + 0 * w j)) = rsum K (fun j => exp (th j))) by (apply rsum_ext; intros; do 2 f_equal; ring). rewrite Q in *.
  rewrite <- (rsum_indicator K v w Hv). rewrite <- rsum_scal_l. unfold Rminus. replace (- rsum K (fun i => / rsum K (fun j => exp (th j)) * (exp (th i) * w i))) with (-1 * rsum K (fun i => / rsum K (fun j => exp (th j)) * (exp (th i) * w i))) by ring.
  rewrite <- rsum_scal_l, <- rsum_plus. apply rsum_ext. intros j _. unfold rsoftmax, Rdiv. rewrite (Nat.eqb_sym v j). destruct (j =? v)%nat; ring.
Qed.
Definition normal_score (mu lv x : R) (j : nat) : R :=
  match j with O => (x - mu) / exp lv | _ => ((x - mu) * (x - mu) / exp lv - 1) / 2 end.
Lemma normal_closed mu lv x : normal_lp mu (normal_sigma lv) x = Fin (- (x - mu) * (x - mu) * exp (- lv) / 2 - lv / 2 - ln (sqrt (2 * PI))).
Proof.
  assert (S: normal_sigma lv ^ 2 = exp lv) by (unfold normal_sigma; simpl; rewrite Rmult_1_r, <- exp_plus; f_equal; field).
  rewrite normal_fin by (apply exp_pos). f_equal. unfold rnormal. rewrite S. unfold normal_sigma. rewrite ln_exp, exp_Ropp. pose proof (exp_pos lv). field. lra.
Qed.
Lemma dlim_normal mu lv x w0 w1 :
  derivable_pt_lim (fun t => - (x - (mu + t * w0)) * (x - (mu + t * w0)) * exp (- (lv + t * w1)) / 2 - (lv + t * w1) / 2 - ln (sqrt (2 * PI))) 0 (normal_score mu lv x 0 * w0 + normal_score mu lv x 1 * w1).
Proof.
  assert (D1: derivable_pt_lim (fun t => x - (mu + t * w0)) 0 (0 - w0)) by (apply (derivable_pt_lim_minus (fun _ => x) (fun t => mu + t * w0)); [apply derivable_pt_lim_const|apply dlim_line]).
  assert (D2: derivable_pt_lim (fun t => exp (- (lv + t * w1))) 0 (exp (- lv) * - w1)).
  { apply (derivable_pt_lim_comp (fun t => - (lv + t * w1)) exp 0 (- w1) (exp (- lv))).
    - apply (derivable_pt_lim_opp (fun t => lv + t * w1)), dlim_line.
    - rewrite Rmult_0_l, Rplus_0_r. apply derivable_pt_lim_exp. }
  pose proof (derivable_pt_lim_opp _ _ _ D1) as D1o. pose proof (derivable_pt_lim_mult _ _ _ _ _ D1o D1) as D3. pose proof (derivable_pt_lim_mult _ _ _ _ _ D3 D2) as D4.
  pose proof (derivable_pt_lim_scal _ (/ 2) _ _ D4) as D5. pose proof (derivable_pt_lim_scal _ (/ 2) _ _ (dlim_line lv w1)) as D6. pose proof (derivable_pt_lim_minus _ _ _ _ _ D5 D6) as D7.
  pose proof (derivable_pt_lim_minus _ _ _ _ _ D7 (derivable_pt_lim_const (ln (sqrt (2 * PI))) 0)) as D8.
  eapply dlim_ext; [|eapply dlim_eq; [|exact D8]].
  - intros t. unfold minus_fct, mult_fct, mult_real_fct, opp_fct, fct_cte. unfold Rdiv. ring.
  - unfold opp_fct, mult_fct, normal_score. rewrite !Rmult_0_l, !Rplus_0_r, exp_Ropp. pose proof (exp_pos lv). field. lra.
Qed.

(** * Bounds *)
Lemma softplus_lip x y : x <= y -> 0 <= softplus y - softplus x <= y - x.
Proof.
  intros H. assert (E: forall z, softplus z = ln (1 + exp z)) by reflexivity. pose proof (exp_pos x). pose proof (exp_pos y).
  assert (M: exp x <= exp y) by (destruct H as [H| ->]; [left; apply exp_increasing; auto|lra]).
  assert (L: forall a b, 0 < a -> a <= b -> ln a <= ln b) by (intros a b Ha [Hb| ->]; [left; apply ln_increasing; auto|lra]).
  split; [rewrite !E; pose proof (L (1 + exp x) (1 + exp y) ltac:(lra) ltac:(lra)); lra|].
  assert (K: softplus y <= (y - x) + softplus x); [|lra]. rewrite !E. rewrite <- (ln_exp (y - x)) at 1. rewrite <- ln_mult by (try apply exp_pos; lra). apply L; [lra|].
  rewrite Rmult_plus_distr_l, Rmult_1_r, <- exp_plus. replace (y - x + x) with y by ring. assert (1 <= exp (y - x)); [|lra]. rewrite <- exp_0. destruct H as [H| ->]; [left; apply exp_increasing; lra|right; f_equal; ring].
Qed.
Lemma logit_lip n a b x y : 0 <= a <= n -> Rabs ((a * clip x - n * softplus (clip x) + b) - (a * clip y - n * softplus (clip y) + b)) <= n * Rabs (x - y).
Proof.
  intros Ha. assert (W: forall u w, u <= w -> Rabs ((a * u - n * softplus u + b) - (a * w - n * softplus w + b)) <= n * (w - u)).
  { intros u w Hu. destruct (softplus_lip u w Hu) as (S1 & S2). apply Rabs_le. split; nra. }
  apply Rle_trans with (n * Rabs (clip x - clip y)); [|apply Rmult_le_compat_l; [lra|apply clip_lip]].
  destruct (Rle_dec (clip x) (clip y)) as [H|H].
  - rewrite (Rabs_left1 (clip x - clip y)) by lra. replace (- (clip x - clip y)) with (clip y - clip x) by ring. auto.
  - rewrite (Rabs_pos_eq (clip x - clip y)) by lra. rewrite Rabs_minus_sym. apply W. lra.
Qed.
Lemma categorical_lip K th th' v d : (v < K)%nat -> (forall j, (j < K)%nat -> Rabs (th j - th' j) <= d) -> Rabs (rlog_softmax K th v - rlog_softmax K th' v) <= 2 * d.
Proof.
  intros Hv H. assert (L: forall t t', (forall j, (j < K)%nat -> t j <= t' j + d) -> ln (rsum K (fun j => exp (t j))) <= d + ln (rsum K (fun j => exp (t' j)))).
  { intros t t' Ht. pose proof (rsumexp_pos K t ltac:(lia)) as P1. pose proof (rsumexp_pos K t' ltac:(lia)) as P2. rewrite <- (ln_exp d) at 1. rewrite <- ln_mult by (auto; apply exp_pos).
    assert (Q: rsum K (fun j => exp (t j)) <= exp d * rsum K (fun j => exp (t' j))).
    { rewrite <- rsum_scal_l. apply rsum_le. intros j Hj. rewrite <- exp_plus. specialize (Ht j Hj). destruct (Rle_lt_or_eq_dec (t j) (d + t' j) ltac:(lra)) as [HH|HH]; [left; apply exp_increasing; auto|rewrite HH; lra]. }
    destruct Q as [Q|Q]; [left; apply ln_increasing; auto|rewrite Q; lra]. }
  assert (B: forall j, (j < K)%nat -> - d <= th j - th' j <= d) by (intros j Hj; specialize (H j Hj); unfold Rabs in H; destruct (Rcase_abs _); lra).
  pose proof (L th th' ltac:(intros j Hj; specialize (B j Hj); lra)). pose proof (L th' th ltac:(intros j Hj; specialize (B j Hj); lra)). specialize (B v Hv).
  unfold rlog_softmax. apply Rabs_le. lra.
Qed.
