(** The Gaussian integral, from Wallis' product. *)
From Coq Require Import List Arith Lia Bool Reals Lra.
Import ListNotations.
Local Open Scope R_scope.

(** * Derivatives *)
Lemma mvt_zero F a b : a <= b -> (forall x, a <= x <= b -> derivable_pt_lim F x 0) -> F b = F a.
Proof.
  intros Hab H. destruct Hab as [Hab| ->]; auto.
  destruct (MVT_cor2 F (fun _ => 0) a b Hab H) as (c & E & _). lra.
Qed.
Lemma mvt_nonneg F f a b : a <= b -> (forall x, a <= x <= b -> derivable_pt_lim F x (f x)) -> (forall x, a < x < b -> 0 <= f x) -> F a <= F b.
Proof.
  intros Hab H Hf. destruct Hab as [Hab| ->]; [|lra].
  destruct (MVT_cor2 F f a b Hab H) as (c & E & Hc). assert (0 <= f c * (b - a)); [apply Rmult_le_pos; [auto|lra]|lra].
Qed.
Lemma dle F G f g a b : a <= b -> (forall x, a <= x <= b -> derivable_pt_lim F x (f x)) -> (forall x, a <= x <= b -> derivable_pt_lim G x (g x)) ->
  (forall x, a < x < b -> f x <= g x) -> F b - F a <= G b - G a.
Proof.
  intros Hab HF HG Hle.
  assert (H: G a - F a <= G b - F b); [|lra].
  apply (mvt_nonneg (fun x => G x - F x) (fun x => g x - f x)); auto.
  - intros x Hx. apply (derivable_pt_lim_minus G F); auto.
  - intros x Hx. specialize (Hle x Hx). lra.
Qed.
Lemma deq F G f a b : a <= b -> (forall x, a <= x <= b -> derivable_pt_lim F x (f x)) -> (forall x, a <= x <= b -> derivable_pt_lim G x (f x)) ->
  F b - F a = G b - G a.
Proof. intros. apply Rle_antisym; eapply dle; eauto; intros; lra. Qed.

(** * Primitives of continuous functions *)
Section Prim.
Variable f : R -> R.
Hypothesis Hf : continuity f.
Lemma integ a b : Riemann_integrable f a b.
Proof.
  destruct (Rle_dec a b).
  - apply continuity_implies_RiemannInt; auto.
  - apply RiemannInt_P1. apply continuity_implies_RiemannInt; [lra|auto].
Qed.
Definition prim (x : R) : R := RiemannInt (integ 0 x).
Lemma prim_0 : prim 0 = 0.
Proof. apply RiemannInt_P9. Qed.
Lemma prim_deriv x : derivable_pt_lim prim x (f x).
Proof.
  set (a := x - 1). set (b := x + 1). assert (Hab: a <= b) by (unfold a, b; lra).
  assert (C0: forall y, a <= y <= b -> continuity_pt f y) by (intros; apply Hf).
  assert (D: derivable_pt_lim (primitive Hab (FTC_P1 Hab C0)) x (f x)) by (apply RiemannInt_P27; unfold a, b; lra).
  set (P := primitive Hab (FTC_P1 Hab C0)) in *.
  assert (E: forall y, a <= y <= b -> P y = prim y - prim a).
  { intros y Hy. unfold P, primitive. destruct (Rle_dec a y); [|lra]. destruct (Rle_dec y b); [|lra].
    unfold prim. rewrite <- (RiemannInt_P26 (integ 0 a) (FTC_P1 Hab C0 r r0) (integ 0 y)). ring. }
  intros eps He. destruct (D eps He) as (d & Hd). exists (mkposreal (Rmin d 1) (Rmin_pos _ _ (cond_pos d) Rlt_0_1)).
  intros h Hh Hlt. cbn [pos] in Hlt. pose proof (Rmin_l d 1). pose proof (Rmin_r d 1).
  assert (Habs: Rabs h < 1) by lra. apply Rabs_def2 in Habs.
  specialize (Hd h Hh ltac:(lra)). rewrite !E in Hd by (unfold a, b; lra).
  replace (prim (x + h) - prim a - (prim x - prim a)) with (prim (x + h) - prim x) in Hd by ring. exact Hd.
Qed.
End Prim.

(** * Wallis *)
Definition cosp (m : nat) (x : R) : R := cos x ^ m.
Lemma cosp_cont m : continuity (cosp m).
Proof. intros x. apply (continuity_pt_comp cos (fun y => y ^ m)); [apply continuity_cos|]. apply derivable_continuous_pt. apply derivable_pt_pow. Qed.
Definition Pc (m : nat) : R -> R := prim (cosp m) (cosp_cont m).
Lemma Pc_deriv m x : derivable_pt_lim (Pc m) x (cos x ^ m).
Proof. apply (prim_deriv (cosp m)). Qed.
Definition W (m : nat) : R := Pc m (PI / 2).
Lemma Pc_0 m : Pc m 0 = 0.
Proof. apply prim_0. Qed.
Lemma hpi : 0 < PI / 2.
Proof. pose proof PI_RGT_0. lra. Qed.
Lemma cos_01 x : 0 <= x <= PI / 2 -> 0 <= cos x <= 1.
Proof. intros H. split; [apply cos_ge_0; pose proof hpi; lra|apply COS_bound]. Qed.
Lemma W_0 : W 0 = PI / 2.
Proof.
  pose proof (deq (Pc 0) (fun x => x) (fun _ => 1) 0 (PI / 2)) as H. rewrite Pc_0 in H. unfold W.
  assert (Pc 0 (PI / 2) - 0 = PI / 2 - 0); [|lra]. apply H; [pose proof hpi; lra| |].
  - intros x _. apply (Pc_deriv 0).
  - intros x _. apply derivable_pt_lim_id.
Qed.
Lemma W_1 : W 1 = 1.
Proof.
  pose proof (deq (Pc 1) sin cos 0 (PI / 2)) as H. rewrite Pc_0, sin_0, sin_PI2 in H. unfold W.
  assert (Pc 1 (PI / 2) - 0 = 1 - 0); [|lra]. apply H; [pose proof hpi; lra| |].
  - intros x _. pose proof (Pc_deriv 1 x) as D. rewrite pow_1 in D. exact D.
  - intros x _. apply derivable_pt_lim_sin.
Qed.
Lemma W_step m : INR (m + 2) * W (m + 2) = INR (m + 1) * W m.
Proof.
  (* (sin cos^(m+1))' = (m+2) cos^(m+2) - (m+1) cos^m *)
  pose proof (mvt_zero (fun x => INR (m + 2) * Pc (m + 2) x - INR (m + 1) * Pc m x - sin x * cos x ^ (m + 1)) 0 (PI / 2)) as H. cbv beta in H.
  rewrite !Pc_0, sin_0, cos_PI2, pow_i in H by lia. fold (W m) (W (m + 2)) in H.
  assert (INR (m + 2) * W (m + 2) - INR (m + 1) * W m - sin (PI / 2) * 0 = INR (m + 2) * 0 - INR (m + 1) * 0 - 0 * cos 0 ^ (m + 1)); [|lra].
  apply H; [pose proof hpi; lra|]. intros x _.
  replace 0 with (INR (m + 2) * cos x ^ (m + 2) - INR (m + 1) * cos x ^ m - (cos x * cos x ^ (m + 1) + sin x * ((INR (m + 1) * cos x ^ m) * - sin x))).
  - apply (derivable_pt_lim_minus (fun x => INR (m + 2) * Pc (m + 2) x - INR (m + 1) * Pc m x) (fun x => sin x * cos x ^ (m + 1))).
    + apply (derivable_pt_lim_minus (fun x => INR (m + 2) * Pc (m + 2) x) (fun x => INR (m + 1) * Pc m x)).
      * apply (derivable_pt_lim_scal (Pc (m + 2)) (INR (m + 2))). apply Pc_deriv.
      * apply (derivable_pt_lim_scal (Pc m) (INR (m + 1))). apply Pc_deriv.
    + apply (derivable_pt_lim_mult sin (fun x => cos x ^ (m + 1))); [apply derivable_pt_lim_sin|].
      apply (derivable_pt_lim_comp cos (fun y => y ^ (m + 1))); [apply derivable_pt_lim_cos|].
      replace m with (pred (m + 1)) at 2 by lia. apply derivable_pt_lim_pow.
  - replace (m + 2)%nat with (S (S m)) by lia. replace (m + 1)%nat with (S m) by lia. rewrite !S_INR. cbn [pow].
    pose proof (sin2_cos2 x) as S2. unfold Rsqr in S2. set (c := cos x) in *. set (s := sin x) in *. set (p := c ^ m) in *.
    replace (s * ((INR m + 1) * p * - s)) with (- ((INR m + 1) * p) * (s * s)) by ring. replace (s * s) with (1 - c * c) by lra. ring.
Qed.
Lemma W_dec m : W (S m) <= W m.
Proof.
  pose proof (dle (Pc (S m)) (Pc m) (fun x => cos x ^ (S m)) (fun x => cos x ^ m) 0 (PI / 2)) as H. rewrite !Pc_0 in H. unfold W.
  assert (Pc (S m) (PI / 2) - 0 <= Pc m (PI / 2) - 0); [|lra]. apply H.
  - pose proof hpi; lra.
  - intros; apply Pc_deriv.
  - intros; apply Pc_deriv.
  - intros x Hx. destruct (cos_01 x) as [C0 C1]; [lra|]. cbn [pow]. pose proof (pow_le (cos x) m C0). nra.
Qed.
Lemma W_prod m : INR (m + 1) * (W m * W (m + 1)) = PI / 2.
Proof.
  induction m as [|m IH].
  - change (0 + 1)%nat with 1%nat. rewrite W_0, W_1. simpl. ring.
  - replace (S m + 1)%nat with (m + 2)%nat by lia. replace (INR (m + 2) * (W (S m) * W (m + 2))) with (W (S m) * (INR (m + 2) * W (m + 2))) by ring.
    rewrite W_step. rewrite <- IH. replace (S m) with (m + 1)%nat by lia. ring.
Qed.
Lemma W_pos m : 0 < W m.
Proof.
  assert (N: forall k, 0 <= W k).
  { intros k. pose proof (mvt_nonneg (Pc k) (fun x => cos x ^ k) 0 (PI / 2)) as H. rewrite Pc_0 in H. unfold W. apply H.
    - pose proof hpi; lra.
    - intros; apply Pc_deriv.
    - intros x Hx. apply pow_le. apply cos_01. lra. }
  destruct (N m) as [|E]; auto. pose proof (W_prod m) as P. rewrite <- E in P. pose proof hpi. lra.
Qed.
(** [W m ^ 2] lies between the products with its neighbours. *)
Lemma W_low m : PI / 2 / INR (m + 1) <= W m * W m.
Proof.
  assert (0 < INR (m + 1)) by (apply lt_0_INR; lia). rewrite <- (W_prod m). replace (INR (m + 1) * (W m * W (m + 1)) / INR (m + 1)) with (W m * W (m + 1)) by (field; lra).
  pose proof (W_pos m). pose proof (W_dec m). replace (m + 1)%nat with (S m) by lia. nra.
Qed.
Lemma W_high m : W (S m) * W (S m) <= PI / 2 / INR (m + 1).
Proof.
  assert (0 < INR (m + 1)) by (apply lt_0_INR; lia). rewrite <- (W_prod m). replace (INR (m + 1) * (W m * W (m + 1)) / INR (m + 1)) with (W m * W (m + 1)) by (field; lra).
  pose proof (W_pos (S m)). pose proof (W_dec m). replace (m + 1)%nat with (S m) by lia. nra.
Qed.

(** * The integral of exp(-x^2) *)
Definition bell (x : R) : R := exp (- (x * x)).
Lemma bell_cont : continuity bell.
Proof.
  intros x. apply derivable_continuous_pt. exists (exp (- (x * x)) * - (1 * x + x * 1)).
  apply (derivable_pt_lim_comp (fun y => - (y * y)) exp); [|apply derivable_pt_lim_exp].
  apply (derivable_pt_lim_opp (fun y => y * y)). apply (derivable_pt_lim_mult (fun y => y) (fun y => y)); apply derivable_pt_lim_id.
Qed.
Definition G : R -> R := prim bell bell_cont.
Lemma G_deriv x : derivable_pt_lim G x (bell x).
Proof. apply prim_deriv. Qed.
Lemma G_0 : G 0 = 0.
Proof. apply prim_0. Qed.
Lemma bell_pos x : 0 < bell x.
Proof. apply exp_pos. Qed.
Lemma G_mono x y : x <= y -> G x <= G y.
Proof. intros H. apply (mvt_nonneg G bell); auto; [intros; apply G_deriv|intros; left; apply bell_pos]. Qed.
Lemma G_odd x : G (- x) = - G x.
Proof.
  assert (P: forall y, 0 <= y -> G (- y) = - G y).
  { intros y Hy. pose proof (mvt_zero (fun x => G x + G (- x)) 0 y Hy) as H. cbv beta in H.
    rewrite Ropp_0, G_0 in H. assert (G y + G (- y) = 0 + 0); [|lra]. apply H. intros z _.
    replace 0 with (bell z + bell (- z) * - 1).
    - apply (derivable_pt_lim_plus G (fun x => G (- x))); [apply G_deriv|].
      apply (derivable_pt_lim_comp (fun x => - x) G); [|apply G_deriv].
      replace (-1) with (- (1)) by ring. apply (derivable_pt_lim_opp (fun x => x)). apply derivable_pt_lim_id.
    - unfold bell. replace (- z * - z) with (z * z) by ring. ring. }
  destruct (Rle_dec 0 x) as [H|H]; auto. specialize (P (- x)). rewrite Ropp_involutive in P. rewrite P by lra. ring.
Qed.
Lemma exp_ge t : 1 + t <= exp t.
Proof.
  destruct (Req_dec t 0) as [->|H]; [rewrite exp_0; lra|]. left. apply exp_ineq1. auto.
Qed.
Lemma exp_mult t n : exp t ^ n = exp (INR n * t).
Proof.
  induction n; [simpl; rewrite Rmult_0_l, exp_0; auto|]. cbn [pow]. rewrite IHn, S_INR, <- exp_plus. f_equal. ring.
Qed.
Lemma tan_deriv x : 0 <= x < PI / 2 -> derivable_pt_lim tan x (1 + tan x ^ 2).
Proof.
  intros Hx. assert (P: - PI / 2 < x < PI / 2) by (pose proof PI_RGT_0; lra). rewrite <- (derive_pt_tan x P).
  destruct (derivable_pt_tan x P) as [l Hl]. exact Hl.
Qed.
Section Bounds.
Variable n : nat.
Hypothesis Hn : (0 < n)%nat.
Let s := sqrt (INR n).
Lemma s_pos : 0 < s.
Proof. apply sqrt_lt_R0. apply lt_0_INR. auto. Qed.
Lemma s_sq : s * s = INR n.
Proof. apply sqrt_sqrt. apply pos_INR. Qed.
Lemma scaled_deriv u du x : derivable_pt_lim u x du -> derivable_pt_lim (fun y => / s * G (s * u y)) x (exp (- (INR n * (u x * u x))) * du).
Proof.
  intros Hu. pose proof s_pos as Hs. replace (exp (- (INR n * (u x * u x))) * du) with (/ s * (bell (s * u x) * (s * du))).
  - apply (derivable_pt_lim_scal (fun y => G (s * u y))). apply (derivable_pt_lim_comp (fun y => s * u y) G); [|apply G_deriv].
    apply (derivable_pt_lim_scal u). auto.
  - unfold bell. replace (s * u x * (s * u x)) with (INR n * (u x * u x)) by (rewrite <- s_sq; ring). field. lra.
Qed.
Lemma G_low : s * W (2 * n + 1) <= G s.
Proof.
  pose proof s_pos as Hs.
  pose proof (dle (Pc (2 * n + 1)) (fun y => / s * G (s * sin y)) (fun x => cos x ^ (2 * n + 1)) (fun x => exp (- (INR n * (sin x * sin x))) * cos x) 0 (PI / 2)) as H. cbv beta in H.
  rewrite Pc_0, sin_0, sin_PI2, Rmult_0_r, G_0, Rmult_1_r in H. fold (W (2 * n + 1)) in H.
  assert (L: W (2 * n + 1) - 0 <= / s * G s - / s * 0).
  { apply H.
    - pose proof hpi; lra.
    - intros; apply Pc_deriv.
    - intros x _. apply scaled_deriv. apply derivable_pt_lim_sin.
    - intros x Hx. destruct (cos_01 x) as [C0 C1]; [lra|]. rewrite pow_add, pow_1. apply Rmult_le_compat_r; auto.
      rewrite pow_mult. replace (- (INR n * (sin x * sin x))) with (INR n * - (sin x * sin x)) by ring. rewrite <- exp_mult.
      apply pow_incr. split; [apply pow2_ge_0|]. pose proof (exp_ge (- (sin x * sin x))). pose proof (sin2_cos2 x). unfold Rsqr in *. cbn [pow]. lra. }
  apply (Rmult_le_compat_l s) in L; [|lra]. replace (s * (/ s * G s - / s * 0)) with (G s) in L by (field; lra). lra.
Qed.
Lemma G_high y : 0 <= y -> G y <= s * W (2 * n - 2).
Proof.
  intros Hy. pose proof s_pos as Hs. set (t := atan (y / s)).
  assert (Ht: 0 <= t < PI / 2).
  { split; [|apply atan_bound]. unfold t. assert (0 <= y / s) by (apply Rle_mult_inv_pos; auto). destruct H as [H|H]; [left|right].
    - rewrite <- atan_0. apply atan_increasing. auto.
    - rewrite <- H, atan_0. auto. }
  assert (Cpos: forall x, 0 <= x <= t -> 0 < cos x) by (intros x Hx; apply cos_gt_0; pose proof hpi; lra).
  pose proof (dle (fun z => / s * G (s * tan z)) (Pc (2 * n - 2)) (fun x => exp (- (INR n * (tan x * tan x))) * (1 + tan x ^ 2)) (fun x => cos x ^ (2 * n - 2)) 0 t) as H. cbv beta in H.
  rewrite Pc_0, tan_0, Rmult_0_r, G_0 in H.
  assert (L: / s * G (s * tan t) - / s * 0 <= Pc (2 * n - 2) t - 0).
  { apply H.
    - lra.
    - intros x Hx. apply (scaled_deriv tan (1 + tan x ^ 2)). apply tan_deriv. lra.
    - intros; apply Pc_deriv.
    - intros x Hx. pose proof (Cpos x ltac:(lra)) as C0.
      assert (E: 1 + tan x ^ 2 = / (cos x * cos x)).
      { unfold tan. pose proof (sin2_cos2 x) as S2. unfold Rsqr in S2. replace (1 + (sin x / cos x) ^ 2) with ((sin x * sin x + cos x * cos x) / (cos x * cos x)) by (field; lra).
        rewrite S2. field. lra. }
      replace (- (INR n * (tan x * tan x))) with (INR n * - (tan x * tan x)) by ring. rewrite <- exp_mult.
      assert (B: exp (- (tan x * tan x)) <= cos x * cos x).
      { rewrite exp_Ropp. apply (Rmult_le_reg_l (exp (tan x * tan x))); [apply exp_pos|]. rewrite Rinv_r by (pose proof (exp_pos (tan x * tan x)); lra).
        pose proof (exp_ge (tan x * tan x)) as X. replace (1 + tan x * tan x) with (1 + tan x ^ 2) in X by ring. rewrite E in X.
        apply (Rmult_le_compat_r (cos x * cos x)) in X; [|nra]. rewrite Rinv_l in X by nra. lra. }
      apply Rle_trans with ((cos x * cos x) ^ n * (1 + tan x ^ 2)).
      + apply Rmult_le_compat_r; [rewrite E; left; apply Rinv_0_lt_compat; nra|]. apply pow_incr. split; auto. left; apply exp_pos.
      + rewrite E. right. replace (cos x * cos x) with (cos x ^ 2) by ring. rewrite <- pow_mult. replace (2 * n)%nat with (2 + (2 * n - 2))%nat by lia.
        rewrite pow_add. replace (2 + (2 * n - 2) - 2)%nat with (2 * n - 2)%nat by lia. field. lra. }
  assert (L2: Pc (2 * n - 2) t <= W (2 * n - 2)).
  { apply (mvt_nonneg (Pc (2 * n - 2)) (fun x => cos x ^ (2 * n - 2))); [lra|intros; apply Pc_deriv|].
    intros x Hx. apply pow_le. apply cos_01. lra. }
  assert (Et: s * tan t = y) by (unfold t; rewrite tan_atan; field; lra).
  rewrite Et in L. apply (Rmult_le_compat_l s) in L; [|lra]. replace (s * (/ s * G y - / s * 0)) with (G y) in L by (field; lra).
  apply (Rmult_le_compat_l s) in L2; lra.
Qed.
End Bounds.

Definition hs : R := sqrt PI / 2.
Lemma hs_pos : 0 < hs.
Proof. unfold hs. assert (0 < sqrt PI) by (apply sqrt_lt_R0; apply PI_RGT_0). lra. Qed.
Lemma hs_sq : hs * hs = PI / 4.
Proof. unfold hs. replace (sqrt PI / 2 * (sqrt PI / 2)) with (sqrt PI * sqrt PI / 4) by field. rewrite sqrt_sqrt; [auto|]. left; apply PI_RGT_0. Qed.
Lemma G_le y : 0 <= y -> G y <= hs.
Proof.
  intros Hy. assert (G0: 0 <= G y) by (rewrite <- G_0; apply G_mono; auto). pose proof hs_pos as Hp.
  assert (S: G y * G y <= hs * hs).
  { apply le_epsilon. intros eps He. rewrite hs_sq.
    (* n = m + 2: G^2 <= PI/4 (m+2)/(m+1) *)
    destruct (archimed_cor1 eps He) as (k & Hk & Hk0). 
    set (m := (k + 1)%nat). pose proof (G_high (m + 1) ltac:(unfold m; lia) y Hy) as H.
    replace (2 * (m + 1) - 2)%nat with (S (2 * m - 1)) in H by (unfold m; lia).
    pose proof (W_high (2 * m - 1)) as Hw. set (w := W (S (2 * m - 1))) in *.
    assert (Wp: 0 < w) by apply W_pos.
    set (s := sqrt (INR (m + 1))) in *. assert (Ss: s * s = INR (m + 1)) by (apply sqrt_sqrt; apply pos_INR).
    assert (Sp: 0 <= s) by apply sqrt_pos.
    assert (A: G y * G y <= INR (m + 1) * (w * w)) by (rewrite <- Ss; nra).
    assert (Hm: 0 < INR m) by (apply lt_0_INR; unfold m; lia).
    assert (Bd: INR (m + 1) * (w * w) <= INR (m + 1) * (PI / 2 / INR (2 * m - 1 + 1))) by (apply Rmult_le_compat_l; [apply pos_INR|auto]).
    replace (2 * m - 1 + 1)%nat with (2 * m)%nat in Bd by (unfold m; lia). rewrite mult_INR, plus_INR in Bd. rewrite plus_INR in A. simpl (INR 2) in Bd. simpl (INR 1) in *.
    replace ((INR m + 1) * (PI / 2 / ((1 + 1) * INR m))) with (PI / 4 + PI / 4 * / INR m) in Bd by (field; lra).
    assert (P4: PI / 4 <= 1) by (pose proof PI_4; lra).
    assert (Km: / INR m <= / INR k).
    { apply Rinv_le_contravar; [apply lt_0_INR; auto|]. apply le_INR. unfold m; lia. }
    assert (0 < / INR m) by (apply Rinv_0_lt_compat; auto). pose proof PI_RGT_0.
    assert (PI / 4 * / INR m <= 1 * / INR m) by (apply Rmult_le_compat_r; lra). lra. }
  apply Rnot_lt_le. intros L. assert (hs * hs < G y * G y) by nra. lra.
Qed.
Lemma G_limit eps : 0 < eps -> exists M, 0 <= M /\ forall y, M <= y -> Rabs (G y - hs) < eps.
Proof.
  intros He. pose proof hs_pos as Hp. destruct (archimed_cor1 (eps / hs)) as (n & Hn & Hn0).
  { apply Rdiv_lt_0_compat; auto. }
  exists (sqrt (INR n)). split; [apply sqrt_pos|]. intros y Hy. pose proof (sqrt_pos (INR n)) as S0.
  assert (G1: G (sqrt (INR n)) <= G y) by (apply G_mono; auto). pose proof (G_le y ltac:(lra)) as G2.
  pose proof (G_low n Hn0) as L. pose proof (W_low (2 * n + 1)) as Wl. pose proof (W_pos (2 * n + 1)) as Wp.
  set (w := W (2 * n + 1)) in *. set (s := sqrt (INR n)) in *. assert (Ss: s * s = INR n) by (apply sqrt_sqrt; apply pos_INR).
  assert (N0: 0 < INR n) by (apply lt_0_INR; auto).
  assert (A: INR n * (PI / 2 / INR (2 * n + 1 + 1)) <= G y * G y).
  { apply Rle_trans with (INR n * (w * w)); [apply Rmult_le_compat_l; lra|]. rewrite <- Ss. replace (s * s * (w * w)) with ((s * w) * (s * w)) by ring.
    assert (0 <= s * w) by (apply Rmult_le_pos; lra). nra. }
  replace (2 * n + 1 + 1)%nat with (2 * (n + 1))%nat in A by lia. rewrite mult_INR, plus_INR in A. simpl (INR 2) in A. simpl (INR 1) in A.
  replace (INR n * (PI / 2 / ((1 + 1) * (INR n + 1)))) with (PI / 4 * (1 - / (INR n + 1))) in A by (field; lra). rewrite <- hs_sq in A.
  assert (Gp: 0 <= G y) by (rewrite <- G_0; apply G_mono; lra).
  assert (D: (hs - G y) * hs <= hs * hs * / (INR n + 1)) by nra.
  assert (D2: hs - G y <= hs * / (INR n + 1)).
  { apply (Rmult_le_reg_r hs); auto. lra. }
  assert (I: / (INR n + 1) < / INR n) by (apply Rinv_lt_contravar; nra).
  assert (hs * / (INR n + 1) < eps).
  { apply Rlt_trans with (hs * / INR n); [apply Rmult_lt_compat_l; auto|]. apply (Rmult_lt_compat_l hs) in Hn; auto. replace (hs * (eps / hs)) with eps in Hn by (field; lra). auto. }
  rewrite Rabs_left1 by lra. lra.
Qed.
