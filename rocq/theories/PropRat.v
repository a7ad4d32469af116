(** C65: networks over RatNormal leaves. *)
From Coq Require Import List Arith Lia Bool ZArith Reals Lra Permutation FunctionalExtensionality.
Import ListNotations.
From Verif Require Import Base RSum Num Tensor Prob Layers Leaf Perm Family Temper Rat TypeChecks Einet RefEinet Build RefBuild Spec RefSpec Integral Density RefDensity RefDensityS RefTemper Ex PropForward PropSample PropLeaf PropDensity PropTemper.
Local Open Scope R_scope.

(** The bounds of the means: none, or two with max_mean other than 0.0 (see C37). *)
Definition mean_bounds (minm maxm : pyval) (lo hi : R) : Prop := is_num minm TFloat (Fin lo) /\ is_num maxm TFloat (Fin hi) /\ hi <> 0.

(** A RatNormal layer is the Normal layer with the projected parameters: standard deviations strictly between the bounds, means strictly
    between their bounds if there are any. *)
Theorem C65_leaf : forall mins maxs minm maxm r lo hi F C L Rn means stds,
  rat_new mins maxs minm maxm = Ok r -> is_num mins TFloat (Fin lo) -> is_num maxs TFloat (Fin hi) -> 0 <= lo -> hi <> 0 ->
  (minm = VNone /\ maxm = VNone \/ exists a b, mean_bounds minm maxm a b) ->
  exists M S, (forall key, lo < S key < hi) /\ (forall key, normal_sigma (2 * ln (S key)) = S key) /\
    (minm = VNone -> forall key, M key = means key) /\
    (forall a b, mean_bounds minm maxm a b -> forall key, a < M key < b) /\
    rat_leaf r F C L Rn means stds = normal_leaf F C L Rn M (fun key => 2 * ln (S key)) /\
    (forall T key eps, 0 <= T -> rat_sample r T (means key) (stds key) eps = Ok (Fin (M key + S key * sqrt T * eps))) /\
    (forall key, rat_params r (means key) (stds key) = Ok (Fin (M key), Fin (S key)) /\
       rat_sampled_params r (means key) (stds key) = Ok (Fin (M key), Fin (2 * ln (S key)))).
Proof.
  intros mins maxs minm maxm r lo hi F C L Rn means stds Hr Hlo Hhi H0 Hne Hm.
  pose proof (fun std => C37_sigma_partial _ _ _ _ _ _ _ std Hr Hlo Hhi H0 Hne) as HS.
  set (S := fun key => toR (rat_sigma r (stds key))).
  assert (ES: forall key, rat_sigma r (stds key) = Fin (S key) /\ lo < S key < hi /\ 0 < S key).
  { intros key. unfold S. destruct (HS (stds key)) as (s & -> & P). auto. }
  assert (HM: exists M, (forall key, rat_mean r (means key) = Ok (Fin (M key))) /\ (minm = VNone -> forall key, M key = means key) /\
     (forall a b, mean_bounds minm maxm a b -> forall key, a < M key < b)).
  { destruct Hm as [[-> ->]|(a & b & B1 & B2 & B3)].
    - exists means. split; [|split; [auto|]].
      + intros key. unfold rat_new in Hr. apply bind_ok in Hr as (x1 & _ & Hr). apply bind_ok in Hr as (x2 & _ & Hr).
        cbn [check_valid bind] in Hr. injection Hr as <-. reflexivity.
      + intros a b (B1 & _). inversion B1.
    - exists (fun key => match rat_mean r (means key) with Ok (Fin m) => m | _ => 0 end).
      assert (X: forall a b, mean_bounds minm maxm a b -> forall key, exists m, rat_mean r (means key) = Ok (Fin m) /\ a < m < b).
      { intros a' b' (C1 & C2 & C3) key. apply (C37_mean_partial mins maxs minm maxm r a' b'); auto. }
      split; [|split].
      + intros key. destruct (X a b (conj B1 (conj B2 B3)) key) as (m & -> & _). auto.
      + intros ->. inversion B1.
      + intros a' b' B' key. destruct (X a' b' B' key) as (m & -> & P). auto. }
  destruct HM as (M & EM & M1 & M2). exists M, S.
  assert (EL: forall key, normal_sigma (2 * ln (S key)) = S key).
  { intros key. unfold normal_sigma. replace (1 / 2 * (2 * ln (S key))) with (ln (S key)) by field. apply exp_ln. apply ES. }
  assert (Lt: nltb (numval (r_min_sigma r)) (numval (r_max_sigma r)) = true).
  { destruct (nltb (numval (r_min_sigma r)) (numval (r_max_sigma r))) eqn:En; auto. exfalso.
    unfold rat_new in Hr. apply bind_ok in Hr as (a & Ha & Hr). apply bind_ok in Hr as (b & Hb & Hr). apply bind_ok in Hr as (c & _ & Hr). apply bind_ok in Hr as (d & _ & Hr).
    injection Hr as <-. cbn [r_min_sigma r_max_sigma] in En.
    assert (A: a = VFloat (Fin lo) /\ lo < hi).
    { inversion Hlo; subst; inversion Hhi; subst; unfold check_valid, check_bounds in Ha; cbn [check_type check_type_core check_type_numpy check_type_torch bind as_bound truthy conv_bound numval conv_value nltb] in Ha;
      destruct (Req_EM_T 0 0) as [_|]; try lra; destruct (Req_EM_T hi 0) as [|_]; try lra; cbn [bind] in Ha; destruct (Rlt_dec lo hi); cbn [guard bind] in Ha; try discriminate; injection Ha as <-; auto. }
    assert (B: b = VFloat (Fin hi)).
    { inversion Hhi; subst; unfold check_valid in Hb; cbn [check_type check_type_core check_type_numpy check_type_torch bind conv_value] in Hb; apply bind_ok in Hb as ([] & _ & Hb); injection Hb as <-; reflexivity. }
    destruct A as [-> Hlt]. subst b. cbn [numval nltb] in En. destruct (Rlt_dec lo hi); [discriminate|contradiction]. }
  split; [intros key; apply ES|]. split; [exact EL|]. split; [exact M1|]. split; [exact M2|]. split; [|split].
  - unfold rat_leaf, normal_leaf. f_equal.
    + apply functional_extensionality. intros key. apply functional_extensionality. intros x. rewrite EM, (proj1 (ES key)), EL. reflexivity.
    + f_equal. apply functional_extensionality. intros key. rewrite EM. reflexivity.
  - intros T key eps HT. unfold rat_sample. rewrite EM, Lt, (proj1 (ES key)). cbn [bind]. unfold nsqrt. destruct (Rle_dec 0 T); [reflexivity|contradiction].
  - intros key. unfold rat_params, rat_sampled_params. rewrite EM, Lt, (proj1 (ES key)). cbn [bind]. split; [reflexivity|].
    unfold nlog. destruct (Rlt_dec 0 (S key)) as [P|P]; [cbn [nmul]; do 3 f_equal; ring|]. exfalso. apply P. apply ES.
Qed.
Print Assumptions C65_leaf.

(** Networks over RatNormal leaves integrate to one. *)
Theorem C65_network : forall g o (E : einet R) mins maxs minm maxm r lo hi means stds k ps,
  accepted g o E -> rat_new mins maxs minm maxm = Ok r -> is_num mins TFloat (Fin lo) -> is_num maxs TFloat (Fin hi) -> 0 <= lo -> hi <> 0 ->
  (minm = VNone /\ maxm = VNone \/ exists a b, mean_bounds minm maxm a b) ->
  leafE E = rat_leaf r (e_F E) (e_C E) (e_L E) (e_R E) means stds -> (k < e_K E)%nat -> missing (e_C E) (e_F E) (fun _ _ => @None R) ps ->
  integrates (fun _ _ => improper) (fun z => lik E (row_tensor (e_C E) (e_F E) z) None 0 k) ps (fun _ _ => None) 1.
Proof.
  intros g o E mins maxs minm maxm r lo hi means stds k ps HA Hr Hlo Hhi H0 Hne Hm Lf Hk Hps.
  destruct (C65_leaf _ _ _ _ _ _ _ (e_F E) (e_C E) (e_L E) (e_R E) means stds Hr Hlo Hhi H0 Hne Hm) as (M & S & _ & _ & _ & _ & EL & _).
  rewrite EL in Lf. apply (C52_normal_network g o E M (fun key => 2 * ln (S key))); auto.
Qed.
Print Assumptions C65_network.

(** The leaf draw of the sampler, from the noise expectation [En]. *)
Definition rat_draw (r : rat) (T : R) (means stds : list nat -> R) (En : list nat -> (R -> R) -> R) (key : list nat) (h : R -> R) : R :=
  En key (fun eps => match rat_sample r T (means key) (stds key) eps with Ok (Fin x) => h x | _ => 0 end).
(** Sampling with standard normal noise, at temperature_sums [Ts] and temperature_leaves [Tl]: the probability that every entry lies in its
    interval is the integral of the density of the network with sum parameters divided by [Ts] and standard deviations times sqrt [Tl].
    Missing: configurations that are not [consistent] (C07, C64). *)
Theorem C65_samples_partial : forall g o (E : einet R) mins maxs minm maxm r lo hi means stds En Ts Tl N y a b ps,
  accepted g o E -> consistent g -> rat_new mins maxs minm maxm = Ok r -> is_num mins TFloat (Fin lo) -> is_num maxs TFloat (Fin hi) -> 0 <= lo -> hi <> 0 ->
  (minm = VNone /\ maxm = VNone \/ exists a b, mean_bounds minm maxm a b) ->
  leafE E = rat_leaf r (e_F E) (e_C E) (e_L E) (e_R E) means stds -> Ts <> 0 -> 0 < Tl ->
  leaf_expectation En -> (forall key u v, u <= v -> En key (between u v) = normal_cdf 0 1 v - normal_cdf 0 1 u) ->
  (1 < e_K E)%nat -> (y < e_K E)%nat -> (0 < N)%nat -> missing (e_C E) (e_F E) (fun _ _ => @None R) ps ->
  (forall n c f : nat, a n c f <= b n c f) ->
  exists E' I M S, accepted g (cooler o Ts (leafE E')) E' /\ (forall key, lo < S key < hi) /\
    (forall key, rat_params r (means key) (stds key) = Ok (Fin (M key), Fin (S key))) /\
    (forall key x, lf_logp (leafE E') key x = normal_lp (M key) (sqrt Tl * S key) x) /\
    (forall n, (n < N)%nat ->
      integrates (fun _ _ => improper) (fun z => lik E' (row_tensor (e_C E) (e_F E) z) None 0 y *
        tests (e_C E) (e_F E) (fun c f => between (a n c f) (b n c f)) z) ps (fun _ _ => None) (I n)) /\
    expect (rat_draw r Tl means stds En) (sample E (mkArgs (Some N) (CInt y) None false false Ts None))
      (batch_tests E N (fun n c f => between (a n c f) (b n c f))) = rprod N I.
Proof.
  intros g o E mins maxs minm maxm r lo hi means stds En Ts Tl N y a b ps HA Hco Hr Hlo Hhi H0 Hne Hm Lf HTs HTl HEn HB HK Hy HN Hps Hab.
  destruct (C65_leaf _ _ _ _ _ _ _ (e_F E) (e_C E) (e_L E) (e_R E) means stds Hr Hlo Hhi H0 Hne Hm) as (M & S & HS & ES & _ & _ & EL & HD & HP).
  rewrite EL in Lf.
  destruct (C55_normal_law_partial g o E M (fun key => 2 * ln (S key)) En Ts Tl N y a b ps) as (E' & I & A' & L' & HI & HX); auto.
  exists E', I, M, S. split; auto. split; auto. split; [intros key; apply HP|]. split; [|split; auto].
  - intros key x. rewrite L'. cbn [normal_leaf lf_logp]. f_equal. unfold normal_sigma. rewrite Rmult_plus_distr_l, exp_plus.
    change (exp (1 / 2 * (2 * ln (S key)))) with (normal_sigma (2 * ln (S key))). rewrite ES, Rmult_comm. f_equal.
    rewrite <- (exp_ln (sqrt Tl)) by (apply sqrt_lt_R0; auto). f_equal. rewrite <- Rpower_sqrt by auto. unfold Rpower. rewrite ln_exp. field.
  - rewrite <- HX. f_equal. apply functional_extensionality. intros key. apply functional_extensionality. intros h. unfold rat_draw, normal_draw.
    f_equal. apply functional_extensionality. intros eps. rewrite HD, normal_sample_fin, ES by lra. reflexivity.
Qed.
Print Assumptions C65_samples_partial.

(** Both bounds 0.0 are accepted; the log-probabilities are those of standard deviation 1.0, but sampling and the parameters raise. *)
Theorem C65_zero_refuted : exists r, rat_new (VFloat (Fin 0)) (VFloat (Fin 0)) VNone VNone = Ok r /\
  (forall F C L Rn means stds, rat_leaf r F C L Rn means stds = normal_leaf F C L Rn means (fun _ => 0)) /\
  (forall T mean std eps, rat_sample r T mean std eps = Err AttributeErr) /\ (forall mean std, rat_params r mean std = Err TypeErr).
Proof.
  exists (mkRat (VFloat (Fin 0)) (VFloat (Fin 0)) VNone VNone). split; [|split; [|split]].
  - unfold rat_new, check_valid, check_bounds. cbn [check_type check_type_core bind as_bound truthy conv_bound numval conv_value nltb].
    destruct (Req_EM_T 0 0) as [_|]; [|lra]. cbn [guard bind]. reflexivity.
  - intros. unfold rat_leaf, normal_leaf. f_equal.
    apply functional_extensionality. intros key. apply functional_extensionality. intros x.
    unfold rat_mean, rat_sigma. cbn [r_max_mean r_min_sigma r_max_sigma as_bound truthy numval nltb]. destruct (Rlt_dec 0 0); [lra|].
    unfold normal_sigma. rewrite Rmult_0_r, exp_0. reflexivity.
  - intros. unfold rat_sample, rat_mean. cbn [r_max_mean r_min_sigma r_max_sigma as_bound truthy numval nltb bind]. destruct (Rlt_dec 0 0); [lra|reflexivity].
  - intros. unfold rat_params, rat_mean. cbn [r_max_mean r_min_sigma r_max_sigma as_bound truthy numval nltb bind]. destruct (Rlt_dec 0 0); [lra|reflexivity].
Qed.
Print Assumptions C65_zero_refuted.
(** min_mean without max_mean is accepted and ignored. *)
Theorem C65_min_mean_refuted : exists r, rat_new (VFloat (Fin (1/10))) (VFloat (Fin 1)) (VFloat (Fin 0)) VNone = Ok r /\
  forall mean, rat_mean r mean = Ok (Fin mean).
Proof.
  eexists. split.
  - unfold rat_new, check_valid, check_bounds. cbn [check_type check_type_core bind as_bound truthy conv_bound numval conv_value nltb].
    destruct (Req_EM_T 0 0) as [_|]; [|lra]. destruct (Req_EM_T 1 0) as [|_]; [lra|]. destruct (Rlt_dec (1/10) 1) as [_|]; [|lra]. cbn [guard bind].
    destruct (Req_EM_T (1/10) 0) as [|_]; [lra|]. unfold nge. cbn [nltb isnan]. destruct (Rlt_dec 1 (1/10)) as [|_]; [lra|]. cbn [negb andb guard bind]. reflexivity.
  - reflexivity.
Qed.
Print Assumptions C65_min_mean_refuted.

(** RatNormal() with its defaults and two more parameters: 5 features, 2 channels, 2 repetitions, 3 classes. *)
Definition rstd (key : list nat) : R := INR (list_sum key) - 4.
Example C65_ex : exists g o (E : einet R) r, accepted g o E /\ e_F E = 5%nat /\ e_C E = 2%nat /\ e_K E = 3%nat /\
  rat_new (VFloat (Fin (1/10))) (VFloat (Fin 1)) (VFloat (Fin (-2))) (VFloat (Fin 3)) = Ok r /\
  leafE E = rat_leaf r 5 2 2 2 nmean rstd /\
  integrates (fun _ _ => improper) (fun z => lik E (row_tensor 2 5 z) None 0 1) (all_entries 2 5) (fun _ _ => None) 1.
Proof.
  set (r := mkRat (VFloat (Fin (1/10))) (VFloat (Fin 1)) (VFloat (Fin (-2))) (VFloat (Fin 3))).
  assert (Hr: rat_new (VFloat (Fin (1/10))) (VFloat (Fin 1)) (VFloat (Fin (-2))) (VFloat (Fin 3)) = Ok r).
  { unfold rat_new, check_valid, check_bounds. cbn [check_type check_type_core bind as_bound truthy conv_bound numval conv_value nltb].
    destruct (Req_EM_T 0 0) as [_|]; [|lra]. destruct (Req_EM_T 1 0) as [|_]; [lra|]. destruct (Rlt_dec (1/10) 1) as [_|]; [|lra]. cbn [guard bind].
    destruct (Req_EM_T (1/10) 0) as [|_]; [lra|]. unfold nge. cbn [nltb isnan]. destruct (Rlt_dec 1 (1/10)) as [|_]; [lra|]. cbn [negb andb guard bind].
    destruct (Req_EM_T 3 0) as [|_]; [lra|]. destruct (Rlt_dec (-2) 3) as [_|]; [|lra]. cbn [guard bind]. destruct (Req_EM_T (-2) 0) as [|_]; [lra|].
    destruct (Rlt_dec 3 (-2)) as [|_]; [lra|]. reflexivity. }
  destruct ex_n as (E0 & A0 & HF & HC & HR & HK & HL & _). set (lf := rat_leaf r 5 2 2 2 nmean rstd). set (E := cool 1 lf E0).
  assert (MB: exists a b, mean_bounds (VFloat (Fin (-2))) (VFloat (Fin 3)) a b) by (exists (-2), 3; repeat split; try constructor; lra).
  destruct (C65_leaf _ _ _ _ r (1/10) 1 5 2 2 2 nmean rstd Hr ltac:(constructor) ltac:(constructor) ltac:(lra) ltac:(lra) (or_intror MB)) as (M & S & _ & _ & _ & _ & EL & _).
  destruct (leaf_sizes _ _ _ A0) as (SC & SF & SL & SR).
  assert (A: accepted ex_td_g (cooler ex_n_o 1 lf) E).
  { apply accepted_cool; auto; try lra; [unfold lf; rewrite EL; apply normal_leaf_ok| | | |]; rewrite ?SC, ?SF, ?SL, ?SR, ?HF, ?HC, ?HL, ?HR; reflexivity. }
  assert (Lf: leafE E = lf) by apply leafE_cool.
  exists ex_td_g, (cooler ex_n_o 1 lf), E, r. split; [exact A|]. split; [exact HF|]. split; [exact HC|]. split; [exact HK|]. split; [exact Hr|]. split; [exact Lf|].
  pose proof (C65_network _ _ E _ _ _ _ r (1/10) 1 nmean rstd 1 (all_entries 2 5) A Hr) as P. unfold E in P. cbn [cool e_F e_C e_L e_R e_K] in P. fold E in P. rewrite HF, HC, HL, HR, HK in P.
  apply P; [constructor|constructor|lra|lra|right; exact MB|exact Lf|lia|apply (all_entries_missing (V := R))].
Qed.
