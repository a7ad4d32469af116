(** Riemann integrals over the real line, as an instance of the integrals of Density.v. *)
From Coq Require Import List Arith Lia Bool Reals Lra RList RiemannInt_SF.
Import ListNotations.
From Verif Require Import Density Gauss.
Local Open Scope R_scope.

(** [f] is integrable on every interval and the integrals over [u, v] tend to [a] as [u] and [v] leave every bound. *)
Definition improper (f : R -> R) (a : R) : Prop :=
  exists pr : forall u v, Riemann_integrable f u v,
  forall eps, 0 < eps -> exists M, forall u v, u <= - M -> M <= v -> Rabs (RiemannInt (pr u v) - a) < eps.

Lemma improper_linear : linear_integral improper.
Proof.
  split.
  - intros f g a E (pr & H). assert (pg: forall u v, Riemann_integrable g u v) by (intros; apply Riemann_integrable_ext with (f := f); auto).
    exists pg.
    intros eps He. destruct (H eps He) as (M & HM). exists (Rmax M 0). intros u v Hu Hv.
    pose proof (Rmax_l M 0). pose proof (Rmax_r M 0). specialize (HM u v ltac:(lra) ltac:(lra)).
    rewrite <- (RiemannInt_P18 (pr u v)); auto. lra.
  - intros f g a b (pf & Hf) (pg & Hg).
    assert (pr: forall u v, Riemann_integrable (fun x => f x + g x) u v).
    { intros u v. apply Riemann_integrable_ext with (f := fun x => f x + 1 * g x); [intros; ring|]. apply RiemannInt_P10; auto. }
    exists pr. intros eps He. destruct (Hf (eps / 2) ltac:(lra)) as (M1 & H1). destruct (Hg (eps / 2) ltac:(lra)) as (M2 & H2).
    exists (Rmax (Rmax M1 M2) 0). intros u v Hu Hv. pose proof (Rmax_l (Rmax M1 M2) 0). pose proof (Rmax_r (Rmax M1 M2) 0).
    pose proof (Rmax_l M1 M2). pose proof (Rmax_r M1 M2). specialize (H1 u v ltac:(lra) ltac:(lra)). specialize (H2 u v ltac:(lra) ltac:(lra)).
    rewrite (RiemannInt_P18 (pr u v) (RiemannInt_P10 1 (pf u v) (pg u v))) by (intros; lra).
    rewrite (RiemannInt_P13 (pf u v) (pg u v)). apply Rabs_def2 in H1. apply Rabs_def2 in H2. apply Rabs_def1; lra.
  - intros k f a (pf & Hf).
    assert (pz: forall u v, Riemann_integrable (fct_cte 0) u v) by (intros; apply RiemannInt_P14).
    assert (pr: forall u v, Riemann_integrable (fun x => k * f x) u v).
    { intros u v. apply Riemann_integrable_ext with (f := fun x => fct_cte 0 x + k * f x); [intros; unfold fct_cte; ring|]. apply RiemannInt_P10; auto. }
    exists pr. intros eps He. destruct (Hf (eps / (Rabs k + 1))) as (M & HM).
    { apply Rdiv_lt_0_compat; auto. pose proof (Rabs_pos k). lra. }
    exists (Rmax M 0). intros u v Hu Hv. pose proof (Rmax_l M 0). pose proof (Rmax_r M 0). specialize (HM u v ltac:(lra) ltac:(lra)).
    rewrite (RiemannInt_P18 (pr u v) (RiemannInt_P10 k (pz u v) (pf u v))); [|lra|intros; unfold fct_cte; ring].
    rewrite (RiemannInt_P13 (pz u v) (pf u v)), RiemannInt_P15.
    replace (0 * (v - u) + k * RiemannInt (pf u v) - k * a) with (k * (RiemannInt (pf u v) - a)) by ring. rewrite Rabs_mult.
    pose proof (Rabs_pos k). pose proof (Rabs_pos (RiemannInt (pf u v) - a)).
    apply Rle_lt_trans with ((Rabs k + 1) * Rabs (RiemannInt (pf u v) - a)); [nra|].
    apply (Rmult_lt_compat_l (Rabs k + 1)) in HM; [|lra]. replace ((Rabs k + 1) * (eps / (Rabs k + 1))) with eps in HM by (field; lra). auto.
  - intros f a Hp (pf & Hf). apply Rnot_lt_le. intros Ha. destruct (Hf (- a) ltac:(lra)) as (M & HM).
    pose proof (Rmax_l M 0). pose proof (Rmax_r M 0). set (v := Rmax M 0) in *. specialize (HM (- v) v ltac:(lra) ltac:(lra)).
    assert (P: 0 * (v - - v) <= RiemannInt (pf (- v) v)).
    { rewrite <- (RiemannInt_P15 (RiemannInt_P14 (- v) v 0)). apply RiemannInt_P19; [lra|]. intros. unfold fct_cte. auto. }
    apply Rabs_def2 in HM. lra.
  - intros f a b (pa & Ha) (pb & Hb). destruct (Req_dec a b) as [|Hne]; auto. exfalso.
    assert (He: 0 < Rabs (a - b) / 2) by (assert (0 < Rabs (a - b)) by (apply Rabs_pos_lt; lra); lra).
    destruct (Ha _ He) as (M1 & H1). destruct (Hb _ He) as (M2 & H2). pose proof (Rmax_l M1 M2). pose proof (Rmax_r M1 M2).
    specialize (H1 (- Rmax M1 M2) (Rmax M1 M2) ltac:(lra) ltac:(lra)). specialize (H2 (- Rmax M1 M2) (Rmax M1 M2) ltac:(lra) ltac:(lra)).
    rewrite (RiemannInt_P5 (pb _ _) (pa (- Rmax M1 M2) (Rmax M1 M2))) in H2. set (r := RiemannInt _) in *.
    pose proof (Rabs_triang (a - r) (r - b)) as T. replace (a - r + (r - b)) with (a - b) in T by ring. rewrite (Rabs_minus_sym a r) in T. lra.
Qed.

(** * Functions with a primitive *)
Section Newton.
Variables f F : R -> R.
Hypothesis Hc : continuity f.
Hypothesis HF : forall x, derivable_pt_lim F x (f x).
Lemma newton_le u v (pr : Riemann_integrable f u v) : u <= v -> RiemannInt pr = F v - F u.
Proof.
  intros Huv. transitivity (prim f Hc v - prim f Hc u).
  - unfold prim. pose proof (RiemannInt_P26 (integ f Hc 0 u) pr (integ f Hc 0 v)). lra.
  - apply (deq (prim f Hc) F f); auto. intros; apply prim_deriv.
Qed.
Lemma improper_newton lo hi : 
  (forall eps, 0 < eps -> exists M, forall y, M <= y -> Rabs (F y - hi) < eps) ->
  (forall eps, 0 < eps -> exists M, forall y, y <= - M -> Rabs (F y - lo) < eps) -> improper f (hi - lo).
Proof.
  intros Hh Hl. exists (integ f Hc). intros eps He. destruct (Hh (eps / 2) ltac:(lra)) as (M1 & H1). destruct (Hl (eps / 2) ltac:(lra)) as (M2 & H2).
  exists (Rmax (Rmax M1 M2) 0). intros u v Hu Hv. pose proof (Rmax_l (Rmax M1 M2) 0). pose proof (Rmax_r (Rmax M1 M2) 0).
  pose proof (Rmax_l M1 M2). pose proof (Rmax_r M1 M2). rewrite newton_le by lra.
  specialize (H1 v ltac:(lra)). specialize (H2 u ltac:(lra)). apply Rabs_def2 in H1. apply Rabs_def2 in H2. apply Rabs_def1; lra.
Qed.
End Newton.

(** * Functions that differ at the end points *)
Lemma step_open a b (phi : StepFun a b) (k : R -> R) : a <= b ->
  { phi' : StepFun a b | (forall x, a < x < b -> phi' x = phi x) /\ (phi' a = k a /\ phi' b = k b) /\ RiemannInt_SF phi' = RiemannInt_SF phi }.
Proof.
  intros Hab. destruct phi as [fu [l [lf AC]]].
  set (fe' := fun x => if Req_EM_T x a then k x else if Req_EM_T x b then k x else fu x).
  assert (AC': adapted_couple fe' a b l lf).
  { destruct AC as (A1 & A2 & A3 & A4 & A5). repeat split; auto. intros i Hi x Hx. specialize (A5 i Hi x Hx). rewrite <- A5.
    rewrite Rmin_left in A2 by auto. rewrite Rmax_right in A3 by auto. unfold open_interval in Hx.
    assert (L1: pos_Rl l 0 <= pos_Rl l i) by (apply (proj1 (RList_P6 l)); auto; lia).
    assert (L2: pos_Rl l (S i) <= pos_Rl l (pred (length l))) by (apply (proj1 (RList_P6 l)); auto; lia).
    unfold fe'. destruct (Req_EM_T x a); [lra|]. destruct (Req_EM_T x b); [lra|]. auto. }
  exists (mkStepFun (existT _ l (existT _ lf AC')) : StepFun a b). cbn [fe]. unfold fe'. repeat split.
  - intros x Hx. destruct (Req_EM_T x a); [lra|]. destruct (Req_EM_T x b); [lra|]. auto.
  - destruct (Req_EM_T a a); [auto|lra].
  - destruct (Req_EM_T b a); auto. destruct (Req_EM_T b b); [auto|lra].
Qed.
Lemma integrable_open f g a b : a <= b -> (forall x, a < x < b -> f x = g x) -> Riemann_integrable f a b -> Riemann_integrable g a b.
Proof.
  intros Hab E pf eps. destruct (pf eps) as (phi & psi & H1 & H2). rewrite Rmin_left, Rmax_right in H1 by auto.
  destruct (step_open a b phi g Hab) as (phi' & P1 & [P2 P3] & _). destruct (step_open a b psi (fun _ => 0) Hab) as (psi' & Q1 & [Q2 Q3] & Q4).
  exists phi', psi'. rewrite Q4. split; auto. rewrite Rmin_left, Rmax_right by auto. intros t Ht.
  destruct (Req_dec t a) as [->|Na]; [rewrite P2, Q2, Rminus_diag_eq, Rabs_R0 by auto; lra|].
  destruct (Req_dec t b) as [->|Nb]; [rewrite P3, Q3, Rminus_diag_eq, Rabs_R0 by auto; lra|].
  rewrite P1, Q1, <- E by lra. auto.
Qed.

(** * Integrals over an interval *)
Definition between (u v x : R) : R := if Rle_dec u x then if Rle_dec x v then 1 else 0 else 0.
Lemma between_nonneg u v x : 0 <= between u v x.
Proof. unfold between. destruct (Rle_dec u x), (Rle_dec x v); lra. Qed.
Lemma between_in u v x : u <= x <= v -> between u v x = 1.
Proof. intros H. unfold between. destruct (Rle_dec u x), (Rle_dec x v); lra. Qed.
Lemma between_out u v x : x < u \/ v < x -> between u v x = 0.
Proof. intros H. unfold between. destruct (Rle_dec u x), (Rle_dec x v); lra. Qed.
Section Box.
Variables f F : R -> R.
Hypothesis Hc : continuity f.
Hypothesis HF : forall x, derivable_pt_lim F x (f x).
Variables u v : R.
Hypothesis Huv : u <= v.
Let h x := f x * between u v x.
Lemma box_zero a b : a <= b -> b <= u \/ v <= a -> Riemann_integrable h a b.
Proof.
  intros Hab H. apply (integrable_open (fct_cte 0)); auto; [|apply RiemannInt_P14]. intros x Hx. unfold h, fct_cte. rewrite between_out by lra. ring.
Qed.
Lemma box_inside a b : a <= b -> u <= a -> b <= v -> Riemann_integrable h a b.
Proof.
  intros Hab H1 H2. apply (integrable_open f); auto; [|apply integ; auto]. intros x Hx. unfold h. rewrite between_in by lra. ring.
Qed.
Lemma box_from b : Riemann_integrable h u b.
Proof.
  destruct (Rle_dec b u); [apply RiemannInt_P1; apply box_zero; lra|]. destruct (Rle_dec b v); [apply box_inside; lra|].
  apply RiemannInt_P24 with v; [apply box_inside; lra|apply box_zero; lra].
Qed.
Lemma box_integrable a b : Riemann_integrable h a b.
Proof. apply RiemannInt_P24 with u; [apply RiemannInt_P1|]; apply box_from. Qed.
Lemma box_zero_val a b (pr : Riemann_integrable h a b) : a <= b -> b <= u \/ v <= a -> RiemannInt pr = 0.
Proof.
  intros Hab H. transitivity (0 * (b - a)); [|ring]. rewrite <- (RiemannInt_P15 (RiemannInt_P14 a b 0)).
  apply RiemannInt_P18; auto. intros x Hx. unfold h, fct_cte. rewrite between_out by lra. ring.
Qed.
Theorem improper_box : improper (fun x => f x * between u v x) (F v - F u).
Proof.
  change (improper h (F v - F u)). exists box_integrable. intros eps He. exists (Rmax (Rabs u) (Rabs v)). intros a b Ha Hb.
  pose proof (Rmax_l (Rabs u) (Rabs v)). pose proof (Rmax_r (Rabs u) (Rabs v)). pose proof (Rle_abs v). pose proof (Rle_abs (- u)). rewrite Rabs_Ropp in *.
  rewrite <- (RiemannInt_P26 (box_integrable a u) (box_integrable u b) (box_integrable a b)).
  rewrite <- (RiemannInt_P26 (box_integrable u v) (box_integrable v b) (box_integrable u b)).
  rewrite (box_zero_val a u), (box_zero_val v b) by lra.
  rewrite (RiemannInt_P18 (box_integrable u v) (integ f Hc u v)); [|auto|intros x Hx; unfold h; rewrite between_in by lra; ring].
  rewrite (newton_le f F Hc HF) by auto. replace (0 + (F v - F u + 0) - (F v - F u)) with 0 by ring. rewrite Rabs_R0. auto.
Qed.
End Box.

(** * The Normal distribution *)
Definition normal_pdf (mu sigma x : R) : R := / (sigma * sqrt (2 * PI)) * exp (- (x - mu) ^ 2 / (2 * sigma ^ 2)).
(** Its distribution function, up to the constant 1/2. *)
Definition normal_cdf (mu sigma x : R) : R := / sqrt PI * G ((x - mu) * / (sigma * sqrt 2)).
Section Normal.
Variables mu sigma : R.
Hypothesis Hs : 0 < sigma.
Lemma s2 : 0 < sqrt 2.
Proof. apply sqrt_lt_R0. lra. Qed.
Lemma sp : 0 < sqrt PI.
Proof. apply sqrt_lt_R0. apply PI_RGT_0. Qed.
Let k := / (sigma * sqrt 2).
Lemma kpos : 0 < k.
Proof. apply Rinv_0_lt_compat. apply Rmult_lt_0_compat; auto. apply s2. Qed.
Lemma cdf_deriv x : derivable_pt_lim (normal_cdf mu sigma) x (normal_pdf mu sigma x).
Proof.
  pose proof s2. pose proof sp. assert (S2: sqrt 2 * sqrt 2 = 2) by (apply sqrt_sqrt; lra).
  replace (normal_pdf mu sigma x) with (/ sqrt PI * (bell ((x - mu) * k) * ((1 - 0) * k + (x - mu) * 0))).
  - apply (derivable_pt_lim_scal (fun y => G ((y - mu) * k))). apply (derivable_pt_lim_comp (fun y => (y - mu) * k) G); [|apply G_deriv].
    apply (derivable_pt_lim_mult (fun y => y - mu) (fun _ => k)).
    + apply (derivable_pt_lim_minus (fun y => y) (fun _ => mu)); [apply derivable_pt_lim_id|apply derivable_pt_lim_const].
    + apply derivable_pt_lim_const.
  - unfold normal_pdf, bell, k. rewrite sqrt_mult by (pose proof PI_RGT_0; lra).
    replace (- ((x - mu) * / (sigma * sqrt 2) * ((x - mu) * / (sigma * sqrt 2)))) with (- (x - mu) ^ 2 / (2 * sigma ^ 2)); [field; lra|].
    rewrite <- S2 at 1. field. lra.
Qed.
Lemma pdf_cont : continuity (normal_pdf mu sigma).
Proof.
  assert (D: forall x, derivable_pt_lim (fun y => - (y - mu) ^ 2 / (2 * sigma ^ 2)) x (- (INR 2 * (x - mu) ^ pred 2 * (1 - 0)) * / (2 * sigma ^ 2) + - (x - mu) ^ 2 * 0)).
  { intros x. apply (derivable_pt_lim_mult (fun y => - (y - mu) ^ 2) (fun _ => / (2 * sigma ^ 2))); [|apply derivable_pt_lim_const].
    apply (derivable_pt_lim_opp (fun y => (y - mu) ^ 2)). apply (derivable_pt_lim_comp (fun y => y - mu) (fun y => y ^ 2)); [|apply derivable_pt_lim_pow].
    apply (derivable_pt_lim_minus (fun y => y) (fun _ => mu)); [apply derivable_pt_lim_id|apply derivable_pt_lim_const]. }
  intros x. apply derivable_continuous_pt. eexists. apply (derivable_pt_lim_scal (fun y => exp (- (y - mu) ^ 2 / (2 * sigma ^ 2)))).
  apply (derivable_pt_lim_comp (fun y => - (y - mu) ^ 2 / (2 * sigma ^ 2)) exp); [apply D|apply derivable_pt_lim_exp].
Qed.
Lemma cdf_hi eps : 0 < eps -> exists M, forall y, M <= y -> Rabs (normal_cdf mu sigma y - 1 / 2) < eps.
Proof.
  intros He. pose proof sp as Hp. destruct (G_limit (eps * sqrt PI)) as (M & M0 & HM); [apply Rmult_lt_0_compat; auto|].
  exists (M * / k + mu). intros y Hy. pose proof kpos as Hk.
  assert (Y: M <= (y - mu) * k).
  { apply (Rmult_le_reg_r (/ k)); [apply Rinv_0_lt_compat; auto|]. rewrite Rmult_assoc, Rinv_r by lra. lra. }
  specialize (HM _ Y). unfold normal_cdf. fold k. unfold hs in HM.
  replace (/ sqrt PI * G ((y - mu) * k) - 1 / 2) with (/ sqrt PI * (G ((y - mu) * k) - sqrt PI / 2)) by (field; lra).
  rewrite Rabs_mult, (Rabs_right (/ sqrt PI)) by (apply Rle_ge; left; apply Rinv_0_lt_compat; auto).
  apply (Rmult_lt_compat_l (/ sqrt PI)) in HM; [|apply Rinv_0_lt_compat; auto]. replace (/ sqrt PI * (eps * sqrt PI)) with eps in HM by (field; lra). auto.
Qed.
Lemma cdf_lo eps : 0 < eps -> exists M, forall y, y <= - M -> Rabs (normal_cdf mu sigma y - - (1 / 2)) < eps.
Proof.
  intros He. destruct (cdf_hi eps He) as (M & HM). exists (M - 2 * mu). intros y Hy. specialize (HM (2 * mu - y) ltac:(lra)).
  unfold normal_cdf in *. replace ((2 * mu - y - mu) * / (sigma * sqrt 2)) with (- ((y - mu) * / (sigma * sqrt 2))) in HM by ring. rewrite G_odd in HM.
  rewrite <- Rabs_Ropp. replace (- (/ sqrt PI * G ((y - mu) * / (sigma * sqrt 2)) - - (1 / 2))) with (/ sqrt PI * - G ((y - mu) * / (sigma * sqrt 2)) - 1 / 2) by ring. auto.
Qed.
Theorem normal_mass : improper (normal_pdf mu sigma) 1.
Proof.
  replace 1 with (1 / 2 - - (1 / 2)) by field. apply (improper_newton _ (normal_cdf mu sigma) pdf_cont cdf_deriv); [apply cdf_hi|apply cdf_lo].
Qed.
Theorem normal_between u v : u <= v -> improper (fun x => normal_pdf mu sigma x * between u v x) (normal_cdf mu sigma v - normal_cdf mu sigma u).
Proof. intros H. apply (improper_box (normal_pdf mu sigma)); auto; [apply pdf_cont|apply cdf_deriv]. Qed.
End Normal.
