(** Theorems about Binomial leaves in differentiable sampling (C68). *)
From Coq Require Import List Arith Lia Bool ZArith Reals Lra Permutation.
Import ListNotations.
From Verif Require Import Base RSum Num Tensor Prob Layers Circuit Net RefFwd RefSample RefLaw Leaf Perm RefLeaf RefLeafS TypeChecks Einet RefNet RefEinet RefEinetS
  RefMpe Build RefBuild Spec RefSpec RefPack Diff RefDiff PropDiff Family RefFamily PropLeaf Temper DBinom Density Gauss Integral PropDensity Ex ExBad.
Local Open Scope R_scope.
Local Arguments Nat.div : simpl never.
Local Arguments Nat.modulo : simpl never.
Local Arguments Nat.sub : simpl never.
Local Arguments Nat.mul : simpl never.
Local Arguments Nat.add : simpl never.

(** * One draw *)
Definition sd (n : nat) (p : R) : R := sqrt (INR n * p * (1 - p)).
Lemma sd_arg n p : 0 <= p <= 1 -> 0 <= INR n * p * (1 - p).
Proof. intros Hp. pose proof (pos_INR n). apply Rmult_le_pos; [apply Rmult_le_pos|]; lra. Qed.
Lemma sd_pos n p : (0 < n)%nat -> 0 < p < 1 -> 0 < sd n p.
Proof. intros Hn Hp. apply sqrt_lt_R0. apply lt_0_INR in Hn. apply Rmult_lt_0_compat; [apply Rmult_lt_0_compat|]; lra. Qed.
Lemma dbinomial_value n p eps : 0 <= p <= 1 -> dbinomial_sample n p eps = Fin (Rmin (INR n) (Rmax 0 (INR n * p + sd n p * eps))).
Proof.
  intros Hp. unfold dbinomial_sample, dbinomial_sigma, dbinomial_mu, nsqrt. destruct (Rle_dec 0 _) as [H|H]; [reflexivity|].
  exfalso. apply H. apply sd_arg. auto.
Qed.

(** Every draw is a number between 0 and total_count. *)
Theorem C68_draw_range : forall n p eps, 0 <= p <= 1 -> exists x, dbinomial_sample n p eps = Fin x /\ 0 <= x <= INR n.
Proof.
  intros n p eps Hp. rewrite dbinomial_value by auto. eexists. split; [reflexivity|]. pose proof (pos_INR n).
  unfold Rmin, Rmax. destruct (Rle_dec 0 _); destruct (Rle_dec (INR n) _); lra.
Qed.
Print Assumptions C68_draw_range.
Example C68_draw_range_ex : dbinomial_sample 4 (1 / 2) (1 / 3) = Fin (7 / 3) /\ dbinomial_sample 4 (1 / 2) 5 = Fin 4 /\ dbinomial_sample 4 (1 / 2) (-7) = Fin 0.
Proof.
  assert (S: sd 4 (1 / 2) = 1). { unfold sd. replace (INR 4 * (1 / 2) * (1 - 1 / 2)) with 1 by (cbn; lra). apply sqrt_1. }
  rewrite !dbinomial_value, S by lra. repeat split; f_equal; unfold Rmin, Rmax; simpl INR; destruct (Rle_dec 0 _); destruct (Rle_dec _ _); lra.
Qed.

(** * The law of one draw *)
Definition at_most (t x : R) : R := if Rle_dec x t then 1 else 0.
Definition less (t x : R) : R := if Rlt_dec x t then 1 else 0.
(** [En] is an expectation over a standard normal number, seen through the probabilities of half lines. *)
Record standard_normal (En : (R -> R) -> R) : Prop := {
  sn_ext : forall f g, (forall x, f x = g x) -> En f = En g;
  sn_const : forall c, En (fun _ => c) = c;
  sn_most : forall t, En (at_most t) = 1 / 2 + normal_cdf 0 1 t;
  sn_less : forall t, En (less t) = 1 / 2 + normal_cdf 0 1 t }.

Lemma cdf_std mu sigma t : 0 < sigma -> normal_cdf mu sigma t = normal_cdf 0 1 ((t - mu) / sigma).
Proof.
  intros Hs. unfold normal_cdf. f_equal. f_equal. assert (0 < sqrt 2) by (apply sqrt_lt_R0; lra). field. lra.
Qed.

(** The distribution function of a draw: that of the Normal distribution with the mean and the variance of the
    Binomial distribution between 0 and total_count, with jumps at these two values. *)
Theorem C68_draw_law : forall En n p t, standard_normal En -> (0 < n)%nat -> 0 < p < 1 ->
  En (fun eps => at_most t (toR (dbinomial_sample n p eps))) =
    (if Rlt_dec t 0 then 0 else if Rlt_dec t (INR n) then 1 / 2 + normal_cdf (INR n * p) (sqrt (INR n * p * (1 - p))) t else 1) /\
  En (fun eps => less t (toR (dbinomial_sample n p eps))) =
    (if Rle_dec t 0 then 0 else if Rle_dec t (INR n) then 1 / 2 + normal_cdf (INR n * p) (sqrt (INR n * p * (1 - p))) t else 1).
Proof.
  intros En n p t HE Hn Hp. fold (sd n p). pose proof (sd_pos n p Hn Hp) as Hs. pose proof (lt_0_INR n Hn) as Pn.
  assert (Q: forall eps, (INR n * p + sd n p * eps <= t <-> eps <= (t - INR n * p) / sd n p) /\ (INR n * p + sd n p * eps < t <-> eps < (t - INR n * p) / sd n p)).
  { intros eps. assert (D: sd n p * ((t - INR n * p) / sd n p) = t - INR n * p) by (field; lra). split; split; intros H.
    - apply (Rmult_le_reg_l (sd n p)); lra.
    - apply (Rmult_le_compat_l (sd n p)) in H; lra.
    - apply (Rmult_lt_reg_l (sd n p)); lra.
    - apply (Rmult_lt_compat_l (sd n p)) in H; lra. }
  rewrite !cdf_std by auto. split.
  - destruct (Rlt_dec t 0); [|destruct (Rlt_dec t (INR n))].
    + rewrite (sn_ext En HE _ (fun _ => 0)); [apply (sn_const En HE)|]. intros eps. rewrite dbinomial_value by lra. cbn [toR].
      unfold at_most, Rmin, Rmax. destruct (Rle_dec 0 _); destruct (Rle_dec (INR n) _); destruct (Rle_dec _ t); lra.
    + rewrite <- (sn_most En HE). apply (sn_ext En HE). intros eps. rewrite dbinomial_value by lra. cbn [toR]. destruct (Q eps) as [[Q1 Q2] _].
      unfold at_most. destruct (Rle_dec eps _) as [H|H].
      * specialize (Q2 H). unfold Rmin, Rmax. destruct (Rle_dec 0 _); destruct (Rle_dec (INR n) _); destruct (Rle_dec _ t); lra.
      * assert (~ (INR n * p + sd n p * eps <= t)) by auto. unfold Rmin, Rmax. destruct (Rle_dec 0 _); destruct (Rle_dec (INR n) _); destruct (Rle_dec _ t); lra.
    + rewrite (sn_ext En HE _ (fun _ => 1)); [apply (sn_const En HE)|]. intros eps. rewrite dbinomial_value by lra. cbn [toR].
      unfold at_most, Rmin, Rmax. destruct (Rle_dec 0 _); destruct (Rle_dec (INR n) _); destruct (Rle_dec _ t); lra.
  - destruct (Rle_dec t 0); [|destruct (Rle_dec t (INR n))].
    + rewrite (sn_ext En HE _ (fun _ => 0)); [apply (sn_const En HE)|]. intros eps. rewrite dbinomial_value by lra. cbn [toR].
      unfold less, Rmin, Rmax. destruct (Rle_dec 0 _); destruct (Rle_dec (INR n) _); destruct (Rlt_dec _ t); lra.
    + rewrite <- (sn_less En HE). apply (sn_ext En HE). intros eps. rewrite dbinomial_value by lra. cbn [toR]. destruct (Q eps) as [_ [Q1 Q2]].
      unfold less. destruct (Rlt_dec eps _) as [H|H].
      * specialize (Q2 H). unfold Rmin, Rmax. destruct (Rle_dec 0 _); destruct (Rle_dec (INR n) _); destruct (Rlt_dec _ t); lra.
      * assert (~ (INR n * p + sd n p * eps < t)) by auto. unfold Rmin, Rmax. destruct (Rle_dec 0 _); destruct (Rle_dec (INR n) _); destruct (Rlt_dec _ t); lra.
    + rewrite (sn_ext En HE _ (fun _ => 1)); [apply (sn_const En HE)|]. intros eps. rewrite dbinomial_value by lra. cbn [toR].
      unfold less, Rmin, Rmax. destruct (Rle_dec 0 _); destruct (Rle_dec (INR n) _); destruct (Rlt_dec _ t); lra.
Qed.
Print Assumptions C68_draw_law.

(** ** Such an expectation exists: the integral against the normal density *)
Section Left.
Variables f F : R -> R.
Hypothesis Hc : continuity f.
Hypothesis HF : forall x, derivable_pt_lim F x (f x).
Variable lo : R.
Hypothesis Hlo : forall eps, 0 < eps -> exists M, forall y, y <= - M -> Rabs (F y - lo) < eps.
Variables (b : R) (h : R -> R).
Hypothesis Hl : forall x, x < b -> h x = f x.
Hypothesis Hr : forall x, b < x -> h x = 0.
Lemma left_from c : Riemann_integrable h b c.
Proof.
  destruct (Rle_dec b c) as [H|H].
  - apply (integrable_open (fct_cte 0)); auto; [|apply RiemannInt_P14]. intros x Hx. unfold fct_cte. symmetry. apply Hr. lra.
  - apply RiemannInt_P1. apply (integrable_open f); [lra| |apply integ; auto]. intros x Hx. symmetry. apply Hl. lra.
Qed.
Lemma left_integrable u v : Riemann_integrable h u v.
Proof. apply RiemannInt_P24 with b; [apply RiemannInt_P1|]; apply left_from. Qed.
Lemma improper_left : improper h (F b - lo).
Proof.
  exists left_integrable. intros eps He. destruct (Hlo eps He) as (M & HM). exists (Rmax M (Rabs b)). intros u v Hu Hv.
  pose proof (Rmax_l M (Rabs b)). pose proof (Rmax_r M (Rabs b)). pose proof (Rle_abs b). pose proof (Rle_abs (- b)). rewrite Rabs_Ropp in *.
  rewrite <- (RiemannInt_P26 (left_integrable u b) (left_integrable b v) (left_integrable u v)).
  rewrite (RiemannInt_P18 (left_integrable u b) (integ f Hc u b)); [|lra|intros x Hx; apply Hl; lra].
  rewrite (newton_le f F Hc HF) by lra.
  replace (RiemannInt (left_integrable b v)) with 0.
  - specialize (HM u ltac:(lra)). replace (F b - F u + 0 - (F b - lo)) with (- (F u - lo)) by ring. rewrite Rabs_Ropp. auto.
  - symmetry. transitivity (0 * (v - b)); [|ring]. rewrite <- (RiemannInt_P15 (RiemannInt_P14 b v 0)). apply RiemannInt_P18; [lra|].
    intros x Hx. unfold fct_cte. apply Hr. lra.
Qed.
End Left.
Definition normal_noise (h : R -> R) : R := the_integral (fun _ => normal_pdf 0 1) [] h.
Lemma normal_noise_ok : standard_normal normal_noise.
Proof.
  pose proof (the_integral_ok (fun _ => normal_pdf 0 1) (fun _ => normal_mass 0 1 ltac:(lra))) as L. unfold normal_noise. split.
  - intros f g H. apply (EL_ext _ L). auto.
  - intros c. rewrite (EL_ext _ L _ _ (fun x => c * 1)) by (intros; ring). rewrite (EL_scal _ L [] c (fun _ => 1)), (EL_one _ L). ring.
  - intros t. apply the_integral_val. replace (1 / 2 + normal_cdf 0 1 t) with (normal_cdf 0 1 t - - (1 / 2)) by ring.
    apply (improper_left (normal_pdf 0 1)); [apply pdf_cont|intros; apply cdf_deriv; lra|apply cdf_lo; lra| |];
      intros x Hx; unfold at_most; destruct (Rle_dec x t); lra.
  - intros t. apply the_integral_val. replace (1 / 2 + normal_cdf 0 1 t) with (normal_cdf 0 1 t - - (1 / 2)) by ring.
    apply (improper_left (normal_pdf 0 1)); [apply pdf_cont|intros; apply cdf_deriv; lra|apply cdf_lo; lra| |];
      intros x Hx; unfold less; destruct (Rlt_dec x t); lra.
Qed.
(** Four fair trials: half of the probability lies at or below the mean. *)
Example C68_draw_law_ex : standard_normal normal_noise /\
  normal_noise (fun eps => at_most 2 (toR (dbinomial_sample 4 (1 / 2) eps))) = 1 / 2.
Proof.
  split; [apply normal_noise_ok|]. destruct (C68_draw_law normal_noise 4 (1 / 2) 2 normal_noise_ok) as [H _]; [lia|lra|]. rewrite H.
  destruct (Rlt_dec 2 0); [lra|]. destruct (Rlt_dec 2 (INR 4)) as [|N]; [|exfalso; apply N; simpl; lra].
  unfold normal_cdf. replace (2 - INR 4 * (1 / 2)) with 0 by (simpl; lra). rewrite Rmult_0_l, G_0. ring.
Qed.

(** The draws do not follow the Binomial distribution: no value strictly between 0 and total_count has positive
    probability, whereas [log_prob] of the same object gives every such integer a positive probability. *)
Theorem C68_binomial_refuted : forall En n p k, standard_normal En -> 0 < p < 1 -> (0 < k < n)%nat ->
  En (fun eps => at_most (INR k) (toR (dbinomial_sample n p eps))) - En (fun eps => less (INR k) (toR (dbinomial_sample n p eps))) = 0 /\
  exists l, binomial_lp n p k = Fin l /\ 0 < exp l.
Proof.
  intros En n p k HE Hp Hk. split.
  - destruct (C68_draw_law En n p (INR k) HE) as [H1 H2]; [lia|auto|]. rewrite H1, H2.
    assert (0 < INR k) by (apply lt_0_INR; lia). assert (INR k < INR n) by (apply lt_INR; lia).
    destruct (Rlt_dec (INR k) 0); [lra|]. destruct (Rlt_dec (INR k) (INR n)); [|lra]. destruct (Rle_dec (INR k) 0); [lra|]. destruct (Rle_dec (INR k) (INR n)); lra.
  - rewrite binomial_fin. eexists. split; [reflexivity|apply exp_pos].
Qed.
Print Assumptions C68_binomial_refuted.
Example C68_binomial_ex : normal_noise (fun eps => at_most (INR 1) (toR (dbinomial_sample 2 (1 / 2) eps))) = normal_noise (fun eps => less (INR 1) (toR (dbinomial_sample 2 (1 / 2) eps))).
Proof. destruct (C68_binomial_refuted normal_noise 2 (1 / 2) 1 normal_noise_ok) as [H _]; [lra|lia|lra]. Qed.

(** * Samples of a network *)
Lemma whole_range n x : whole n x = true -> 0 <= x <= INR n.
Proof.
  unfold whole. destruct (Req_EM_T _ x) as [E|]; [|discriminate]. intros H. apply andb_true_iff in H as [H1 H2].
  apply Z.leb_le in H1, H2. rewrite <- E, INR_IZR_INZ. split; apply IZR_le; auto.
Qed.
Lemma mode_range n p : 0 <= p < 1 -> 0 <= INR (binomial_mode n p) <= INR n.
Proof.
  intros Hp. split; [apply pos_INR|]. apply le_INR. unfold binomial_mode. pose proof (pos_INR n) as Pn.
  destruct (base_Int_part (p * (INR n + 1))) as [B1 B2].
  assert (p * (INR n + 1) < INR n + 1). { rewrite <- (Rmult_1_l (INR n + 1)) at 2. apply Rmult_lt_compat_r; lra. }
  assert (Int_part (p * (INR n + 1)) < Z.of_nat n + 1)%Z. { apply lt_IZR. rewrite plus_IZR, <- INR_IZR_INZ. lra. }
  lia.
Qed.
Lemma draw_range sgm n par key x : 0 <= sgm (par key) < 1 -> dbinomial_draw sgm n par key x -> 0 <= x <= INR n.
Proof.
  intros Hp (eps & He). destruct (C68_draw_range n (sgm (par key)) eps) as (y & Ey & Hy); [lra|]. rewrite Ey in He. injection He as <-. auto.
Qed.

Section Range.
Variables (g : config) (o : oracle R) (E : einet R).
Variables (sgm : R -> R) (n : nat) (par : list nat -> R).
Hypothesis HA : accepted g o E.
Hypothesis Lf : leafE E = real_binomial_leaf sgm (e_F E) (e_C E) (e_L E) (e_R E) n par.
Hypothesis Hp : forall key, 0 <= sgm (par key) < 1.
Let supp := dbinomial_draw sgm n par.
Lemma filled_range (a : sargs) c f w : filled E a supp c f w -> 0 <= w <= INR n.
Proof.
  intros (l & r & _ & _ & H). destruct (a_mpe a || a_mpel a).
  - destruct H as (md & Em & ->). unfold leafE in Lf. rewrite Lf in Em. injection Em as <-. apply mode_range; auto.
  - eapply draw_range; eauto.
Qed.
End Range.

(** Differentiable samples of a network over Binomial leaves hold numbers between 0 and total_count, in every mode. *)
Theorem C68_range : forall g o (E : einet R) sgm n par us N mpe mpel T r,
  accepted g o E -> leafE E = real_binomial_leaf sgm (e_F E) (e_C E) (e_L E) (e_R E) n par -> (forall key, 0 <= sgm (par key) < 1) ->
  (0 < N)%nat -> T <> 0 ->
  outcome (dbinomial_draw sgm n par) (dsample (fun x => x) us E (mkArgs (Some N) CNone None mpe mpel T None)) r ->
  exists t, r = Ok t /\ shape t = [N; e_C E; e_F E] /\
    forall i c f, (i < N)%nat -> (c < e_C E)%nat -> (f < e_F E)%nat -> exists x, get t [i; c; f] = Fin x /\ 0 <= x <= INR n.
Proof.
  intros g o E sgm n par us N mpe mpel T r HA Lf Hp HN HT Ho. pose proof (accepted_ok g o E HA) as HE.
  set (a := mkArgs (Some N) CNone None mpe mpel T None) in *.
  assert (Hmd: mpe || mpel = true -> lf_mode (leafE E) <> None) by (intros _; rewrite Lf; discriminate).
  destruct (C25_sample_follows_partial R (fun x => x) g o E us N mpe mpel T (dbinomial_draw sgm n par) r HA) as (t & t' & -> & Ot & Hs & Hg & _); auto; [rewrite Lf; reflexivity|].
  destruct (sample_free_out E HE a) as [O _]; auto.
  - unfold check_args. cbn. destruct (e_K E =? 1)%nat; reflexivity.
  - exact I.
  - change (lf_ctx (leafE E) = true). rewrite Lf. reflexivity.
  - destruct (O _ _ Ot) as (t'' & Z & St & Gt). injection Z as <-. cbn [a num_samples a_ev a_n] in St, Gt.
    exists t. split; auto. split; [congruence|]. intros i c f Hi Hc Hf. destruct (Gt i c f Hi Hc Hf) as (w & Ew & Fw).
    exists w. rewrite Hg by (rewrite Hs, St; simpl; auto). rewrite Ew. split; auto. eapply filled_range; eauto.
Qed.
Print Assumptions C68_range.

(** The same given evidence, which is kept. *)
Theorem C68_evidence_range : forall g o (E : einet R) sgm n par us N e ms mpe mpel T r,
  accepted g o E -> leafE E = real_binomial_leaf sgm (e_F E) (e_C E) (e_L E) (e_R E) n par -> (forall key, 0 <= sgm (par key) < 1) ->
  evidence E N e ms -> (0 < N)%nat -> T <> 0 ->
  outcome (dbinomial_draw sgm n par) (dsample (fun x => x) us E (mkArgs None CNone (Some e) mpe mpel T ms)) r ->
  exists t, r = Ok t /\ shape t = shape e /\
    forall i c f, (i < N)%nat -> (c < e_C E)%nat -> (f < e_F E)%nat ->
      exists x, entry t i c f = Fin x /\ 0 <= x <= INR n /\ forall v, observed e ms i c f = Some v -> x = v.
Proof.
  intros g o E sgm n par us N e ms mpe mpel T r HA Lf Hp He HN HT Ho. pose proof (accepted_ok g o E HA) as HE.
  set (a := mkArgs None CNone (Some e) mpe mpel T ms) in *. assert (EN: num_samples a = N) by (cbn; apply (batch_size E); apply He).
  assert (Hmd: mpe || mpel = true -> lf_mode (leafE E) <> None) by (intros _; rewrite Lf; discriminate).
  pose proof (evidence_input E N e ms He) as Hin.
  destruct (C25_evidence_follows_partial R (fun x => x) g o E us N e ms mpe mpel T (dbinomial_draw sgm n par) r HA) as (t & t' & -> & Ot & Hs & Hg & _); auto; [rewrite Lf; reflexivity|].
  destruct (sample_evidence_out E HE a e eq_refl) as [O _]; rewrite ?EN; auto.
  - unfold check_args. cbn. destruct (e_K E =? 1)%nat; reflexivity.
  - change (lf_ctx (leafE E) = true). rewrite Lf. reflexivity.
  - destruct (O _ _ Ot) as (t'' & Z & St & Gt). injection Z as <-. rewrite EN in Gt. cbn [a a_ms] in Gt.
    exists t. split; auto. split; [congruence|]. intros i c f Hi Hc Hf. specialize (Gt i c f Hi Hc Hf).
    assert (Et: entry t i c f = match entry t' i c f with Some v => Fin v | None => NaN end).
    { unfold entry. rewrite Hs. apply Hg. rewrite Hs, St. apply (ix_ravel _ N (e_C E) (e_F E)); auto. apply Hin. }
    rewrite <- observed_row in Gt. destruct (observed e ms i c f) as [v|] eqn:Eo.
    + rewrite Gt in Et. exists v. split; auto. split; [|intros v' Hv; congruence]. apply whole_range.
      change (lf_supp (real_binomial_leaf sgm (e_F E) (e_C E) (e_L E) (e_R E) n par) v = true). rewrite <- Lf.
      destruct Hin as (_ & H & _). apply (H i c f v); auto. unfold observed in Eo. destruct ms; auto. destruct (existsb _ _); [discriminate|auto].
    + destruct Gt as (w & Ew & Fw). rewrite Ew in Et. exists w. split; auto. split; [|intros v' Hv; congruence]. eapply filled_range; eauto.
Qed.
Print Assumptions C68_evidence_range.

(** * Samples are not valid data *)
(** What a caller passes on from a sample. *)
Definition as_input (t : tensor num) : tensor (option R) := tmap (fun x => match x with Fin r => Some r | _ => None end) t.
Lemma outcome_more {V A} (P Q : list nat -> V -> Prop) (m : M V A) r : (forall key v, P key v -> Q key v) -> outcome P m r -> outcome Q m r.
Proof. intros H Ho. induction Ho; try (econstructor; eauto; fail); apply out_empty; auto. Qed.
Lemma half_not_whole n : whole n (1 / 2) = false.
Proof.
  assert (E: Int_part (1 / 2) = 0%Z) by (unfold Int_part; rewrite <- (tech_up (1 / 2) 1); [reflexivity|lra|lra]).
  unfold whole. rewrite E. destruct (Req_EM_T _ _) as [H|]; auto. exfalso. simpl in H. lra.
Qed.
Lemma zero_whole n : whole n 0 = true.
Proof.
  assert (E: Int_part 0 = 0%Z) by (unfold Int_part; rewrite <- (tech_up 0 1); [reflexivity|lra|lra]).
  unfold whole. rewrite E. destruct (Req_EM_T _ _) as [_|H]; [|exfalso; apply H; reflexivity]. apply andb_true_iff. split; apply Z.leb_le; lia.
Qed.
Lemma half_drawn sgm n par key : (0 < n)%nat -> 0 < sgm (par key) < 1 -> dbinomial_draw sgm n par key (1 / 2).
Proof.
  intros Hn Hp. exists ((1 / 2 - INR n * sgm (par key)) / sd n (sgm (par key))). rewrite dbinomial_value by lra.
  pose proof (sd_pos n _ Hn Hp). replace (INR n * _ + _ * _) with (1 / 2) by (field; lra). f_equal.
  assert (1 <= INR n) by (change 1 with (INR 1); apply le_INR; lia). unfold Rmin, Rmax. destruct (Rle_dec 0 _); destruct (Rle_dec (INR n) _); lra.
Qed.
(** Data with a value outside the support of the leaves are rejected. *)
Lemma forward_rejects g o (E : einet R) N x i c f v : accepted g o E -> shape x = [N; e_C E; e_F E] ->
  (i < N)%nat -> (c < e_C E)%nat -> (f < e_F E)%nat -> get x [i; c; f] = Some v -> lf_supp (leafE E) v = false ->
  forward E x None = Err ValueErr.
Proof.
  intros HA Hs Hi Hc Hf Hx Hv. destruct x as [s gx]. cbn [shape get] in Hs, Hx. subst s.
  assert (P: prepare E (mkT [N; e_C E; e_F E] gx) = Ok (mkT [N; e_C E; e_F E] gx)).
  { unfold prepare, dim, size. cbn [shape length Nat.eqb bind assert nth]. rewrite !Nat.eqb_refl. reflexivity. }
  assert (B: base_forward (leaf_of (e_leaf E)) (mkT [N; e_C E; e_F E] gx) None = Err ValueErr).
  { unfold base_forward, dist_forward, dim. cbn [tmap shape length Nat.eqb].
    set (x0 := unsq_end 2 _). replace (forallb _ _) with false; [reflexivity|]. symmetry. apply not_true_is_false. intros H. rewrite forallb_forall in H.
    specialize (H [i; c; f; 0; 0]%nat). change (leaf_of (e_leaf E)) with (leafE E) in H.
    assert (Hg: get x0 [i; c; f; 0; 0]%nat = v). { unfold x0. cbn. rewrite Hx. reflexivity. }
    rewrite Hg, Hv in H. discriminate H. apply in_all_idx. unfold x0. cbn. lia. }
  unfold forward, forward_full. rewrite P. cbn [bind].
  unfold leaf_forward. rewrite B. reflexivity.
Qed.
(** Every network over Binomial leaves has differentiable samples that its own forward rejects with a ValueError. *)
Theorem C68_scored_refuted : forall g o (E : einet R) sgm n par us N,
  accepted g o E -> leafE E = real_binomial_leaf sgm (e_F E) (e_C E) (e_L E) (e_R E) n par -> (0 < n)%nat -> (forall key, 0 < sgm (par key) < 1) ->
  (0 < N)%nat -> exists t,
  outcome (dbinomial_draw sgm n par) (dsample (fun x => x) us E (mkArgs (Some N) CNone None false false 1 None)) (Ok t) /\
  forward E (as_input t) None = Err ValueErr.
Proof.
  intros g o E sgm n par us N HA Lf Hn Hp HN. pose proof (accepted_ok g o E HA) as HE.
  set (a := mkArgs (Some N) CNone None false false 1 None).
  destruct (dsample_has (fun x => x) us E a (fun key v => dbinomial_draw sgm n par key v /\ v = 1 / 2) (1 / 2)) as (r & Ho).
  { intros key. split; auto. apply half_drawn; auto. }
  destruct (C25_sample_follows_partial R (fun x => x) g o E us N false false 1 (fun key v => dbinomial_draw sgm n par key v /\ v = 1 / 2) r HA) as (t & t' & -> & Ot & Hs & Hg & _); auto; try discriminate; try lra; [rewrite Lf; reflexivity|].
  exists t. split; [eapply outcome_more; [|exact Ho]; intros key v [H _]; exact H|].
  destruct (sample_free_out E HE a) as [O _]; auto.
  - unfold check_args. cbn. destruct (e_K E =? 1)%nat; reflexivity.
  - exact I.
  - cbn. lra.
  - change (lf_ctx (leafE E) = true). rewrite Lf. reflexivity.
  - discriminate.
  - destruct (O _ _ Ot) as (t'' & Z & St & Gt). injection Z as <-. cbn [a num_samples a_ev a_n] in St, Gt.
    destruct (Gt 0 0 0)%nat as (w & Ew & l & q & _ & _ & Hw); [lia|apply (eo_C E HE)|apply (eo_F E HE)|]. cbn [a a_mpe a_mpel orb] in Hw. destruct Hw as [_ ->].
    apply (forward_rejects g o E N (as_input t) 0 0 0 (1 / 2)); auto.
    + unfold as_input. cbn [tmap shape]. congruence.
    + apply (eo_C E HE).
    + apply (eo_F E HE).
    + unfold as_input. cbn [tmap get]. rewrite Hg by (rewrite Hs, St; simpl; pose proof (eo_C E HE); pose proof (eo_F E HE); lia). rewrite Ew. reflexivity.
    + rewrite Lf. apply half_not_whole.
Qed.
Print Assumptions C68_scored_refuted.

(** A built network with Binomial leaves of eight trials over real numbers. *)
Definition ex_db_leaf (F C L Rn : nat) : bleaf R := real_binomial_leaf rsigmoid F C L Rn 8 (fun key => INR (list_sum key)).
Definition ex_db_o : oracle R :=
  mkOracle (fun i idx => grow (i :: idx)) grow grow grow [1; 2; 1; 1]%nat ex_td_perm (fun F C L R => Ok (ex_db_leaf F C L R)).
Lemma ex_db : exists E, accepted ex_td_g ex_db_o E /\ e_F E = 5%nat /\ e_C E = 2%nat /\ e_K E = 3%nat /\ leafE E = ex_db_leaf (e_F E) (e_C E) (e_L E) (e_R E).
Proof.
  assert (O: oracle_ok ex_td_g ex_db_o).
  { destruct ex_n_oracle. split; cbn [ex_n_o rchoices ex_db_o o_logits o_top o_mix o_root o_sizes o_perm o_leaf] in *; auto.
    unfold ex_td_g, plain. cbn [g_F g_C g_L g_R]. rewrite !nval_nat. eexists. split; [reflexivity|]. split; [|repeat split].
    split; [apply zero_whole|]. intros. cbn [ex_db_leaf real_binomial_leaf lf_logp]. rewrite binomial_fin. reflexivity. }
  destruct (build_succeeds ex_td_g ex_db_o) as (E & HE); auto.
  - apply plain_valid; try lia; try lra; try congruence. simpl; lia.
  - exists 0%R. split; [constructor|lra].
  - cbn [ex_td_g plain g_depth zval]. lia.
  - discriminate.
  - exists E. assert (A: accepted ex_td_g ex_db_o E) by (split; [reflexivity|exact O|exact HE]).
    destruct (build_inv ex_td_g ex_db_o E eq_refl O HE) as (HO & EF & EC & ER & EK).
    split; [exact A|]. cbn [ex_td_g plain g_F g_C g_R g_K] in *. rewrite nval_nat in *.
    repeat (split; [assumption|]).
    assert (L: leafE E = ex_db_leaf 5 2 2 2).
    { unfold build in HE. apply bind_ok in HE as ([] & _ & HE). cbn [ex_td_g plain g_struct] in HE. unfold build_top_down in HE.
      apply bind_ok in HE as (? & _ & HE). apply bind_ok in HE as (? & _ & HE). apply bind_ok in HE as (? & _ & HE).
      apply bind_ok in HE as (lf & Hl & HE). apply bind_ok in HE as (? & _ & HE). apply bind_ok in HE as (? & _ & HE).
      inversion HE. unfold leafE. cbn [e_leaf]. unfold build_input in Hl. cbn [ex_db_o o_leaf] in Hl.
      unfold ex_td_g, plain in Hl. cbn [g_F g_C g_L g_R] in Hl. rewrite !nval_nat in Hl. cbn [bind Nat.eqb] in Hl. inversion Hl. reflexivity. }
    assert (EL: e_L E = 2%nat) by (rewrite <- (eo_lL E HO); fold (leafE E); rewrite L; reflexivity).
    rewrite L, EF, EC, ER, EL. reflexivity.
Qed.
Example C68_range_ex : exists g o (E : einet R), accepted g o E /\ e_K E = 3%nat /\
  let a := mkArgs (Some 2%nat) CNone None false false 1 None in
  let supp := dbinomial_draw rsigmoid 8 (fun key => INR (list_sum key)) in
  (exists t, outcome supp (dsample (fun x => x) (fun _ _ => 1 / 2) E a) (Ok t) /\ forward E (as_input t) None = Err ValueErr) /\
  forall r, outcome supp (dsample (fun x => x) (fun _ _ => 1 / 2) E a) r ->
    exists t x, r = Ok t /\ get t [1; 1; 4]%nat = Fin x /\ 0 <= x <= INR 8.
Proof.
  destruct ex_db as (E & A & HF & HC & HK & L). exists ex_td_g, ex_db_o, E. repeat (split; [assumption|]). cbv zeta. split.
  - apply (C68_scored_refuted ex_td_g ex_db_o E rsigmoid 8); auto; try lia. intros key. apply sigmoid_range.
  - intros r Hr. destruct (C68_range ex_td_g ex_db_o E rsigmoid 8 (fun key => INR (list_sum key)) (fun _ _ => 1 / 2) 2 false false 1 r A L) as (t & -> & _ & G); auto; try lia; try lra.
    + intros key. pose proof (sigmoid_range (INR (list_sum key))). lra.
    + destruct (G 1 1 4)%nat as (x & Ex & Hx); try lia. exists t, x. auto.
Qed.
(** Feature 0 of channel 0 is observed, everything else is missing. *)
Definition db_ev : tensor (option R) :=
  mkT [1; 2; 5]%nat (fun idx => match idx with [_; 0; 0] => Some 3%R | _ => None end%nat).
Lemma whole_nat n k : (k <= n)%nat -> whole n (INR k) = true.
Proof.
  intros H. assert (E: Int_part (INR k) = Z.of_nat k). { unfold Int_part. rewrite <- (tech_up (INR k) (Z.of_nat k + 1)); [lia| |]; rewrite plus_IZR, <- INR_IZR_INZ; lra. }
  unfold whole. rewrite E. destruct (Req_EM_T _ _) as [_|N]; [|exfalso; apply N; symmetry; apply INR_IZR_INZ]. apply andb_true_iff. split; apply Z.leb_le; lia.
Qed.
Example C68_evidence_range_ex : exists g o (E : einet R), accepted g o E /\ e_K E = 3%nat /\
  let a := mkArgs None CNone (Some db_ev) false false 1 None in
  let supp := dbinomial_draw rsigmoid 8 (fun key => INR (list_sum key)) in
  (exists r, outcome supp (dsample (fun x => x) (fun _ _ => 1 / 2) E a) r) /\
  forall r, outcome supp (dsample (fun x => x) (fun _ _ => 1 / 2) E a) r ->
    exists t x, r = Ok t /\ entry t 0 0 0 = Fin 3 /\ entry t 0 1 4 = Fin x /\ 0 <= x <= INR 8.
Proof.
  destruct ex_db as (E & A & HF & HC & HK & L). exists ex_td_g, ex_db_o, E. repeat (split; [assumption|]). cbv zeta.
  assert (Ev: evidence E 1 db_ev None).
  { split; [|exact I]. split; [right; left; rewrite HF, HC; reflexivity|]. intros n c f v _ _ _ Hv. rewrite L. unfold entry, db_ev in Hv. cbn [shape ix get] in Hv.
    destruct c, f; try discriminate. injection Hv as <-. change (whole 8 3 = true). replace 3 with (INR 3) by (simpl; lra). apply whole_nat. lia. }
  split.
  - apply (dsample_has (fun x => x) _ E _ _ (1 / 2)). intros key. apply half_drawn; [lia|apply sigmoid_range].
  - intros r Hr. destruct (C68_evidence_range ex_td_g ex_db_o E rsigmoid 8 (fun key => INR (list_sum key)) (fun _ _ => 1 / 2) 1 db_ev None false false 1 r A L) as (t & -> & _ & G); auto; try lia; try lra.
    + intros key. pose proof (sigmoid_range (INR (list_sum key))). lra.
    + destruct (G 0 0 0)%nat as (x0 & E0 & _ & H0); try lia. rewrite (H0 3 eq_refl) in E0.
      destruct (G 0 1 4)%nat as (x & Ex & Hx & _); try lia. exists t, x. auto.
Qed.
