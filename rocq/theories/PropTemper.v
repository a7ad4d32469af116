(** C55: sampling temperatures. *)
From Coq Require Import List Arith Lia Bool ZArith Reals Lra Rpower FunctionalExtensionality.
Import ListNotations.
From Verif Require Import Base RSum Num Tensor Prob Layers Circuit Net RefFwd Leaf RefLeaf RefLeafS TypeChecks Einet RefNet RefEinet RefEinetS Build RefBuild Spec RefSpec RefSpecS RefMore RefPack
  Family RefFamily Ex PropForward PropSample PropLeaf Density RefDensity Gauss Integral PropDensity RefDiff Temper RefTemper.
Local Open Scope R_scope.
Local Arguments Nat.div : simpl never.
Local Arguments Nat.modulo : simpl never.
Local Arguments Nat.sub : simpl never.
Local Arguments Nat.mul : simpl never.
Local Arguments Nat.add : simpl never.

Lemma leafE_cool {V} T lf' (E : einet V) : leafE (cool T lf' E) = lf'.
Proof. unfold leafE, cool. cbn [e_leaf]. destruct (e_leaf E); reflexivity. Qed.
Lemma accepted_cool {V} g o (E : einet V) T lf' : accepted g o E -> T <> 0 -> leaf_ok lf' ->
  lf_C lf' = lf_C (leafE E) -> lf_F lf' = lf_F (leafE E) -> lf_L lf' = lf_L (leafE E) -> lf_R lf' = lf_R (leafE E) ->
  accepted g (cooler o T lf') (cool T lf' E).
Proof.
  intros HA HT Hl HsC HsF HsL HsR. pose proof (accepted_ok g o E HA) as HE. destruct HA as [Hc [O1 O2 O3 O4 O5 O6 O7] Hb].
  assert (Fo: forall x, isfin x = true -> isfin (over T x) = true).
  { intros [x| | |] H; try discriminate H. unfold over. cbn [ndiv]. destruct (Req_EM_T T 0); [contradiction|reflexivity]. }
  destruct (build_inv g o E Hc ltac:(split; auto) Hb) as (_ & EF & EC & ER & EK).
  assert (EL: e_L E = nval (g_L g)).
  { destruct O7 as (lf & El & _ & _ & _ & LL & _). rewrite <- LL, <- (eo_lL E HE). f_equal.
    clear - El Hb. unfold build in Hb. apply bind_ok in Hb as ([] & _ & Hb). destruct (g_struct g); [| |discriminate].
    - unfold build_top_down in Hb. apply bind_ok in Hb as (? & _ & Hb). apply bind_ok in Hb as (? & _ & Hb). apply bind_ok in Hb as (? & _ & Hb).
      apply bind_ok in Hb as (l & Hl & Hb). apply bind_ok in Hb as (? & _ & Hb). apply bind_ok in Hb as (? & _ & Hb). inversion Hb. cbn [e_leaf].
      unfold build_input in Hl. rewrite El in Hl. cbn [bind] in Hl. destruct (_ =? 1)%nat; inversion Hl; reflexivity.
    - unfold build_bottom_up in Hb. apply bind_ok in Hb as (? & _ & Hb). apply bind_ok in Hb as (? & _ & Hb). apply bind_ok in Hb as (? & _ & Hb). apply bind_ok in Hb as (? & _ & Hb).
      apply bind_ok in Hb as (? & _ & Hb). apply bind_ok in Hb as (l & Hl & Hb). rewrite El in Hl. inversion Hl; subst l.
      apply bind_ok in Hb as (? & _ & Hb). apply bind_ok in Hb as (? & _ & Hb). inversion Hb. reflexivity. }
  split; auto.
  - split; cbn [cooler o_logits o_top o_mix o_root o_sizes o_perm o_leaf]; auto.
    destruct O7 as (lf & El & _). exists lf'. rewrite El. split; [reflexivity|]. split; auto.
    rewrite HsC, HsF, HsL, HsR. unfold leafE. rewrite (eo_lF E HE), (eo_lC E HE), (eo_lL E HE), (eo_lR E HE). auto.
  - rewrite build_cool, Hb. reflexivity.
Qed.

(** * Any leaves and any mode *)
(** Without evidence, sampling with temperature_sums = T is the same program as sampling at temperature one from the network whose
    sum parameters are divided by T; the leaves may be replaced by leaves with other densities. *)
Theorem C55_program : forall V g o (E : einet V) T lf' a,
  accepted g o E -> T <> 0 -> leaf_ok lf' -> same_draws (leafE E) lf' -> a_ev a = None ->
  exists E', accepted g (cooler o T lf') E' /\ leafE E' = lf' /\ sample E (with_T a T) = sample E' (with_T a 1).
Proof.
  intros V g o E T lf' a HA HT Hl Hs He. exists (cool T lf' E). split; [apply accepted_cool; auto; apply Hs|]. split; [apply leafE_cool|].
  apply sample_cool; auto.
Qed.
Print Assumptions C55_program.

(** Discrete leaves: the samples follow the likelihood of the network with divided parameters and the leaves that the draws follow.
    Missing: configurations that are not [consistent] (C07). *)
Theorem C55_law_partial : forall g o (E : einet nat) B T lf' N cl y xs,
  accepted g o E -> consistent g -> T <> 0 -> leaf_ok lf' -> same_draws (leafE E) lf' -> discrete_leaf B lf' -> lf_ctx (leafE E) = true -> (0 < N)%nat ->
  (cl = CNone /\ e_K E = 1%nat /\ y = 0%nat \/ cl = CInt y /\ (1 < e_K E)%nat /\ (y < e_K E)%nat) ->
  (forall n c f, (n < N)%nat -> (c < e_C E)%nat -> (f < e_F E)%nat -> (xs n c f < B)%nat) ->
  exists E', accepted g (cooler o T lf') E' /\ leafE E' = lf' /\
    Pr B lf' (sample E (mkArgs (Some N) cl None false false T None)) (rows_are N (e_C E) (e_F E) xs) =
    rprod N (fun n => lik E' (one_row (e_C E) (e_F E) (xs n)) None 0 y).
Proof.
  intros g o E B T lf' N cl y xs HA Hco HT Hl Hs HB Hctx HN Hcl Hx.
  set (E' := cool T lf' E). assert (A': accepted g (cooler o T lf') E') by (apply accepted_cool; auto; apply Hs).
  exists E'. assert (L': leafE E' = lf') by apply leafE_cool. split; auto. split; auto.
  change (mkArgs (Some N) cl None false false T None) with (with_T (mkArgs (V := nat) (Some N) cl None false false 1 None) T).
  rewrite (sample_cool T lf' E) by auto. fold E'. change (with_T (mkArgs (Some N) cl None false false 1 None) 1) with (mkArgs (V := nat) (Some N) cl None false false 1 None).
  assert (HB': discrete_leaf B (leafE E')) by (rewrite L'; auto). assert (Hc': lf_ctx (leafE E') = true) by (rewrite L', (sd_ctx _ _ Hs); auto).
  rewrite <- L'. change (e_C E) with (e_C E'). change (e_F E) with (e_F E'). destruct Hcl as [(-> & HK & ->)|(-> & HK & Hy)].
  - apply (free_single g _ E' B A' Hco HB' Hc'); auto.
  - apply (free_class g _ E' B A' Hco HB' Hc'); auto.
Qed.
Print Assumptions C55_law_partial.

(** * temperature_leaves: Categorical *)
(** The tempered probabilities are the normalized powers of the leaf probabilities with exponent 1/T, which are the probabilities of
    the leaf with logits divided by T. *)
Theorem C55_categorical : forall T K (l : nat -> num), T <> 0 -> (0 < K)%nat -> (forall k, (k < K)%nat -> isfin (l k) = true) ->
  exists m, temper_categorical T K (categorical_logits K l) = Ok m /\
  forall v, (v < K)%nat -> m v = categorical_lp K (fun k => ndiv (l k) (Fin T)) v /\
    pval (m v) = Rpower (pval (categorical_lp K l v)) (1 / T) / rsum K (fun k => Rpower (pval (categorical_lp K l k)) (1 / T)).
Proof.
  intros T K l HT HK Hl. set (r := fun k => toR (l k)).
  assert (Lr: forall k, (k < K)%nat -> l k = Fin (r k)) by (intros k Hk; specialize (Hl k Hk); unfold r; destruct (l k); try discriminate; reflexivity).
  assert (L1: forall k, (k < K)%nat -> categorical_logits K l k = Fin (rcat_logits K r k)) by (intros; apply cat_logits_fin; auto).
  assert (L2: forall k, (k < K)%nat -> ndiv (categorical_logits K l k) (Fin T) = Fin (rcat_logits K r k / T)) by (intros k Hk; rewrite L1 by auto; cbn [ndiv]; destruct (Req_EM_T T 0); [contradiction|reflexivity]).
  set (m := nlog_softmax K (fun k => ndiv (categorical_logits K l k) (Fin T))).
  assert (M: forall v, (v < K)%nat -> m v = Fin (rlog_softmax K (fun k => rcat_logits K r k / T) v)) by (intros; apply nlog_softmax_fin; auto).
  exists m. split.
  - unfold temper_categorical. fold m. assert (G: forallb (fun k => negb (isnan (m k))) (seq 0 K) = true).
    { apply forallb_forall. intros k Hk. apply in_seq in Hk. rewrite M by lia. reflexivity. }
    rewrite G. reflexivity.
  - intros v Hv. rewrite M by auto. split.
    + unfold categorical_lp. rewrite (cat_logits_fin K _ (fun k => r k / T)); auto.
      2:{ intros k Hk. rewrite Lr by auto. cbn [ndiv]. destruct (Req_EM_T T 0); [contradiction|reflexivity]. }
      f_equal. rewrite rlog_softmax_twice by auto. unfold rlog_softmax.
      assert (S: forall k, rcat_logits K r k / T = r k / T + - ln (rsum K (fun j => exp (r j))) / T).
      { intros k. rewrite rlog_softmax_twice by auto. unfold rlog_softmax. field. auto. }
      rewrite (rsum_ext K (fun j => exp (rcat_logits K r j / T)) (fun j => exp (r j / T) * exp (- ln (rsum K (fun j => exp (r j))) / T))) by (intros j Hj; rewrite S, exp_plus; reflexivity).
      rewrite S, rsum_scal_r, ln_mult, ln_exp; [ring| |apply exp_pos]. apply (rsumexp_pos K (fun j => r j / T)); auto.
    + cbn [pval]. unfold rlog_softmax. rewrite (exp_log_softmax K (fun k => rcat_logits K r k / T) v HK). unfold rsoftmax.
      assert (P: forall k, (k < K)%nat -> Rpower (pval (categorical_lp K l k)) (1 / T) = exp (rcat_logits K r k / T)).
      { intros k Hk. unfold categorical_lp. rewrite L1 by auto. cbn [pval]. unfold Rpower. rewrite ln_exp. f_equal. field. auto. }
      rewrite P by auto. f_equal. apply rsum_ext. intros k Hk. symmetry. apply P; auto.
Qed.
Print Assumptions C55_categorical.
(** Probabilities 1/5 and 4/5 at temperature 1/2 become 1/17 and 16/17. *)
Example C55_categorical_ex : let l := fun k => if (k =? 0)%nat then Fin 0 else Fin (ln 4) in
  exists m, temper_categorical (1 / 2) 2 (categorical_logits 2 l) = Ok m /\ pval (m 0%nat) = 1 / 17 /\ pval (m 1%nat) = 16 / 17.
Proof.
  intros l. assert (Fl: forall k, (k < 2)%nat -> isfin (l k) = true) by (intros k _; unfold l; destruct (k =? 0)%nat; reflexivity).
  destruct (C55_categorical (1 / 2) 2 l ltac:(lra) ltac:(lia) Fl) as (m & E & H). exists m. split; auto.
  assert (P: forall k, (k < 2)%nat -> pval (categorical_lp 2 l k) = (if (k =? 0)%nat then 1 / 5 else 4 / 5)).
  { intros k Hk. unfold categorical_lp. rewrite (cat_logits_fin 2 l (fun k => if (k =? 0)%nat then 0 else ln 4)); auto.
    - cbn [pval]. fold (rcat 2 (fun k => if (k =? 0)%nat then 0 else ln 4) k). rewrite categorical_exp by lia. unfold rsoftmax. rewrite !rsum_S, rsum_0. cbn [Nat.eqb]. rewrite exp_0, exp_ln by lra.
      destruct k as [|[|]]; [| |lia]; cbn [Nat.eqb]; rewrite ?exp_0, ?exp_ln by lra; field.
    - intros j _. unfold l. destruct (j =? 0)%nat; reflexivity. }
  assert (R2: forall x, 0 < x -> Rpower x (1 / (1 / 2)) = x * x).
  { intros x Hx. replace (1 / (1 / 2)) with (1 + 1) by field. rewrite Rpower_plus, Rpower_1 by auto. reflexivity. }
  assert (S: rsum 2 (fun k => Rpower (pval (categorical_lp 2 l k)) (1 / (1 / 2))) = 17 / 25).
  { rewrite !rsum_S, rsum_0, !P by lia. cbn [Nat.eqb]. rewrite !R2 by lra. field. }
  destruct (H 0%nat ltac:(lia)) as [_ H0]. destruct (H 1%nat ltac:(lia)) as [_ H1].
  rewrite H0, H1, S, !P by lia. cbn [Nat.eqb]. rewrite !R2 by lra. split; field.
Qed.
(** Temperature zero is not a greedy choice: the constructor of the tempered distribution raises. *)
Lemma nlse_zero K (l : nat -> num) : (forall k, (k < K)%nat -> l k = NInf) -> nlogsumexp K l = NInf.
Proof.
  intros H. unfold nlogsumexp. rewrite (nsum_fin K _ (fun _ => 0)) by (intros k Hk; rewrite H by auto; reflexivity). rewrite rsum_zero.
  unfold nlog. destruct (Rlt_dec 0 0); [lra|]. destruct (Req_EM_T 0 0); [reflexivity|contradiction].
Qed.
Theorem C55_zero_categorical_refuted : forall K (l : nat -> num), (1 < K)%nat -> (forall k, (k < K)%nat -> isfin (l k) = true) ->
  temper_categorical 0 K (categorical_logits K l) = Err ValueErr.
Proof.
  intros K l HK Hl. set (r := fun k => toR (l k)).
  assert (Lr: forall k, (k < K)%nat -> l k = Fin (r k)) by (intros k Hk; specialize (Hl k Hk); unfold r; destruct (l k); try discriminate; reflexivity).
  assert (Neg: forall k, (k < K)%nat -> rcat_logits K r k < 0).
  { intros k Hk. rewrite rlog_softmax_twice by lia. unfold rlog_softmax. assert (exp (r k) < rsum K (fun j => exp (r j))).
    { set (j := if (k =? 0)%nat then 1%nat else 0%nat). assert (Hj: (j < K)%nat /\ j <> k) by (unfold j; destruct (Nat.eqb_spec k 0); lia). destruct Hj as [Hj Hjk].
      assert (Q: rsum K (fun i => (if (i =? k)%nat then 1 else 0) * exp (r i) + (if (i =? j)%nat then 1 else 0) * exp (r i)) <= rsum K (fun i => exp (r i))).
      { apply rsum_le. intros i Hi. pose proof (exp_pos (r i)). destruct (Nat.eqb_spec i k); destruct (Nat.eqb_spec i j); try lra. lia. }
      rewrite rsum_plus, !rsum_indicator in Q by auto. pose proof (exp_pos (r j)). lra. }
    apply ln_increasing in H; [|apply exp_pos]. rewrite ln_exp in H. lra. }
  unfold temper_categorical. set (z := fun k => ndiv (categorical_logits K l k) (Fin 0)).
  assert (Z: forall k, (k < K)%nat -> z k = NInf).
  { intros k Hk. unfold z. rewrite (cat_logits_fin K l r) by auto. cbn [ndiv]. destruct (Req_EM_T 0 0); [|contradiction]. specialize (Neg k Hk).
    destruct (Rlt_dec 0 (rcat_logits K r k)); [lra|]. destruct (Rlt_dec (rcat_logits K r k) 0); [reflexivity|lra]. }
  assert (G: forallb (fun k => negb (isnan (nlog_softmax K z k))) (seq 0 K) = false).
  { destruct K as [|K']; [lia|]. cbn [seq forallb]. unfold nlog_softmax at 1. rewrite Z by lia. rewrite nlse_zero by auto. reflexivity. }
  rewrite G. reflexivity.
Qed.
Print Assumptions C55_zero_categorical_refuted.

Lemma categorical_mode_over T K (l : nat -> num) : 0 < T -> (0 < K)%nat -> (forall k, (k < K)%nat -> isfin (l k) = true) ->
  categorical_mode K (fun k => ndiv (l k) (Fin T)) = categorical_mode K l.
Proof.
  intros HT HK Hl. set (r := fun k => toR (l k)).
  assert (Lr: forall k, (k < K)%nat -> l k = Fin (r k)) by (intros k Hk; specialize (Hl k Hk); unfold r; destruct (l k); try discriminate; reflexivity).
  rewrite (cat_mode_fin K _ (fun k => r k / T)), (cat_mode_fin K l r); auto.
  2:{ intros k Hk. rewrite Lr by auto. cbn [ndiv]. destruct (Req_EM_T T 0); [lra|reflexivity]. }
  unfold rcat_mode, nargmax. apply argmax_aux_mono; [|lia]. intros j k _ _.
  assert (Q: forall s i j, nltb (Fin (rsoftmax K (rcat_logits K s) i)) (Fin (rsoftmax K (rcat_logits K s) j)) = nltb (Fin (s i)) (Fin (s j))).
  { intros s i i'. cbn [nltb]. unfold rsoftmax. pose proof (rsumexp_pos K (rcat_logits K s) HK) as P. rewrite !rlog_softmax_twice by auto. unfold rlog_softmax. set (Z := ln _). set (W := rsum K _) in *.
    assert (W0: 0 < W) by exact P. clear P. clearbody W Z.
    destruct (Rlt_dec (exp (s i - Z) / W) (exp (s i' - Z) / W)) as [H|H], (Rlt_dec (s i) (s i')) as [H'|H']; auto; exfalso.
    - apply H'. apply Rmult_lt_reg_r in H; [|apply Rinv_0_lt_compat; auto]. apply exp_lt_inv in H. lra.
    - apply H. apply Rmult_lt_compat_r; [apply Rinv_0_lt_compat; auto|]. apply exp_increasing. lra. }
  rewrite (Q (fun k => r k / T)), (Q r). cbn [nltb].
  destruct (Rlt_dec (r j / T) (r k / T)) as [H|H], (Rlt_dec (r j) (r k)) as [H'|H']; auto; exfalso.
  - apply H'. apply Rmult_lt_reg_r in H; auto. apply Rinv_0_lt_compat; auto.
  - apply H. apply Rmult_lt_compat_r; auto. apply Rinv_0_lt_compat; auto.
Qed.
Definition heat (T : R) (par : list nat -> nat -> num) (key : list nat) (k : nat) : num := ndiv (par key k) (Fin T).
Lemma heat_fin T K par : T <> 0 -> (forall key k, (k < K)%nat -> isfin (par key k) = true) -> forall key k, (k < K)%nat -> isfin (heat T par key k) = true.
Proof.
  intros HT H key k Hk. unfold heat. specialize (H key k Hk). destruct (par key k); try discriminate. cbn [ndiv]. destruct (Req_EM_T T 0); [contradiction|reflexivity].
Qed.
Lemma categorical_leaf_ok F C L Rn K par : (0 < K)%nat -> (forall key k, (k < K)%nat -> isfin (par key k) = true) -> leaf_ok (categorical_leaf F C L Rn K par).
Proof.
  intros HK Hp. destruct (C47_categorical F C L Rn K par HK Hp) as [D Fi]. split; [change ((0 <? K)%nat = true); apply Nat.ltb_lt; auto|].
  intros c f l r v _ _ _ _ Hv. apply Fi. apply Nat.ltb_lt. exact Hv.
Qed.
Lemma heat_draws T F C L Rn K par : 0 < T -> (0 < K)%nat -> (forall key k, (k < K)%nat -> isfin (par key k) = true) ->
  same_draws (categorical_leaf F C L Rn K par) (categorical_leaf F C L Rn K (heat T par)).
Proof.
  intros HT HK Hp. split; try reflexivity. cbn [categorical_leaf lf_mode]. f_equal. apply functional_extensionality. intros key.
  apply (categorical_mode_over T K (par key)); auto.
Qed.
(** Categorical leaves, both temperatures: the draws at the leaves follow the distribution that the code builds, and the samples
    follow the likelihood of the network with divided parameters.
    Missing: configurations that are not [consistent], temperatures below zero. *)
Theorem C55_categorical_law_partial : forall g o (E : einet nat) K par Ts Tl N cl y xs,
  accepted g o E -> consistent g -> leafE E = categorical_leaf (e_F E) (e_C E) (e_L E) (e_R E) K par -> (0 < K)%nat ->
  (forall key k, (k < K)%nat -> isfin (par key k) = true) -> Ts <> 0 -> 0 < Tl -> (0 < N)%nat ->
  (cl = CNone /\ e_K E = 1%nat /\ y = 0%nat \/ cl = CInt y /\ (1 < e_K E)%nat /\ (y < e_K E)%nat) ->
  (forall n c f, (n < N)%nat -> (c < e_C E)%nat -> (f < e_F E)%nat -> (xs n c f < K)%nat) ->
  exists E', accepted g (cooler o Ts (leafE E')) E' /\ leafE E' = categorical_leaf (e_F E) (e_C E) (e_L E) (e_R E) K (heat Tl par) /\
    (forall key, exists m, temper_categorical Tl K (categorical_logits K (par key)) = Ok m /\ forall v, (v < K)%nat -> m v = lf_logp (leafE E') key v) /\
    Pr K (leafE E') (sample E (mkArgs (Some N) cl None false false Ts None)) (rows_are N (e_C E) (e_F E) xs) =
    rprod N (fun n => lik E' (one_row (e_C E) (e_F E) (xs n)) None 0 y).
Proof.
  intros g o E K par Ts Tl N cl y xs HA Hco Lf HK Hp HTs HTl HN Hcl Hx.
  pose proof (heat_fin Tl K par ltac:(lra) Hp) as Hp'.
  destruct (C55_law_partial g o E K Ts (categorical_leaf (e_F E) (e_C E) (e_L E) (e_R E) K (heat Tl par)) N cl y xs HA Hco HTs) as (E' & A' & L' & P); auto.
  - apply categorical_leaf_ok; auto.
  - rewrite Lf. apply heat_draws; auto.
  - apply C47_categorical; auto.
  - rewrite Lf. reflexivity.
  - exists E'. rewrite L'. split; auto. split; auto. split; auto. intros key.
    destruct (C55_categorical Tl K (par key) ltac:(lra) HK (Hp key)) as (m & Em & Hm). exists m. split; auto. intros v Hv. apply Hm; auto.
Qed.
Print Assumptions C55_categorical_law_partial.

(** * temperature_leaves: Normal *)
(** A sample is mean + sigma * sqrt(T) * noise. *)
Lemma normal_sample_fin T mu sigma eps : 0 <= T -> normal_sample T mu sigma eps = Fin (mu + sigma * sqrt T * eps).
Proof. intros HT. unfold normal_sample, custom_sample, temper_sigma, nsqrt. destruct (Rle_dec 0 T); [reflexivity|lra]. Qed.
Lemma normal_cdf_noise mu s v : 0 < s -> normal_cdf 0 1 ((v - mu) / s) = normal_cdf mu s v.
Proof. intros Hs. unfold normal_cdf. f_equal. f_equal. assert (0 < sqrt 2) by (apply sqrt_lt_R0; lra). field. lra. Qed.
Lemma normal_sigma_heat T v : 0 < T -> normal_sigma (v + ln T) = normal_sigma v * sqrt T.
Proof.
  intros HT. unfold normal_sigma. rewrite Rmult_plus_distr_l, exp_plus. f_equal. rewrite <- Rpower_sqrt by auto. unfold Rpower. f_equal. field.
Qed.
(** What the leaf draws, given the noise. *)
Definition normal_draw (Tl : R) (means logvar : list nat -> R) (En : list nat -> (R -> R) -> R) (key : list nat) (h : R -> R) : R :=
  En key (fun eps => match normal_sample Tl (means key) (normal_sigma (logvar key)) eps with Fin x => h x | _ => 0 end).
Lemma normal_draw_ok Tl means logvar En : 0 <= Tl -> leaf_expectation En -> leaf_expectation (normal_draw Tl means logvar En).
Proof.
  intros HT [X1 X2 X3]. split; unfold normal_draw.
  - intros key f g H. apply X1. intros eps. rewrite normal_sample_fin by auto. apply H.
  - intros key c f. rewrite <- X2. apply X1. intros eps. rewrite normal_sample_fin by auto. reflexivity.
  - intros key. rewrite (X1 key _ (fun _ => 1)); [apply X3|]. intros eps. rewrite normal_sample_fin by auto. reflexivity.
Qed.
(** If the noise has the standard normal distribution then tempered leaves have the variance multiplied by T. *)
Theorem C55_normal : forall Tl means logvar En key u v, 0 < Tl -> leaf_expectation En -> u <= v ->
  (forall a b, a <= b -> En key (between a b) = normal_cdf 0 1 b - normal_cdf 0 1 a) ->
  normal_draw Tl means logvar En key (between u v) =
  normal_cdf (means key) (sqrt Tl * normal_sigma (logvar key)) v - normal_cdf (means key) (sqrt Tl * normal_sigma (logvar key)) u.
Proof.
  intros Tl means logvar En key u v HT [X1 X2 X3] Huv HB. set (mu := means key). set (s := sqrt Tl * normal_sigma (logvar key)).
  assert (Hs: 0 < s) by (apply Rmult_lt_0_compat; [apply sqrt_lt_R0; auto|apply exp_pos]).
  unfold normal_draw. rewrite (X1 key _ (between ((u - mu) / s) ((v - mu) / s))).
  - rewrite HB; [rewrite !normal_cdf_noise by auto; reflexivity|]. apply Rmult_le_compat_r; [left; apply Rinv_0_lt_compat; auto|lra].
  - intros eps. rewrite normal_sample_fin by lra. fold mu. replace (mu + normal_sigma (logvar key) * sqrt Tl * eps) with (mu + s * eps) by (unfold s; ring).
    assert (A: forall a, a <= mu + s * eps <-> (a - mu) / s <= eps).
    { intros a. split; intros H.
      - apply (Rmult_le_reg_r s); auto. replace ((a - mu) / s * s) with (a - mu) by (field; lra). lra.
      - apply (Rmult_le_compat_r s) in H; [|lra]. replace ((a - mu) / s * s) with (a - mu) in H by (field; lra). lra. }
    assert (B: forall b, mu + s * eps <= b <-> eps <= (b - mu) / s).
    { intros b. split; intros H.
      - apply (Rmult_le_reg_r s); auto. replace ((b - mu) / s * s) with (b - mu) by (field; lra). lra.
      - apply (Rmult_le_compat_r s) in H; [|lra]. replace ((b - mu) / s * s) with (b - mu) in H by (field; lra). lra. }
    unfold between. specialize (A u). specialize (B v).
    destruct (Rle_dec u _), (Rle_dec _ eps); try tauto. destruct (Rle_dec _ v), (Rle_dec eps _); tauto.
Qed.
Print Assumptions C55_normal.
(** Normal leaves, both temperatures: the probability that every entry lies in its interval is the integral of the likelihood of the
    network with divided logits and with the variances multiplied by temperature_leaves.
    Missing: configurations that are not [consistent]; events that are not boxes. *)
Theorem C55_normal_law_partial : forall g o (E : einet R) means logvar En Ts Tl N y lo hi ps,
  accepted g o E -> consistent g -> leafE E = normal_leaf (e_F E) (e_C E) (e_L E) (e_R E) means logvar -> Ts <> 0 -> 0 < Tl ->
  leaf_expectation En -> (forall key u v, u <= v -> En key (between u v) = normal_cdf 0 1 v - normal_cdf 0 1 u) ->
  (1 < e_K E)%nat -> (y < e_K E)%nat -> (0 < N)%nat -> missing (e_C E) (e_F E) (fun _ _ => @None R) ps ->
  (forall n c f : nat, lo n c f <= hi n c f) ->
  exists E' I, accepted g (cooler o Ts (leafE E')) E' /\ leafE E' = normal_leaf (e_F E) (e_C E) (e_L E) (e_R E) means (fun key => logvar key + ln Tl) /\
    (forall n, (n < N)%nat ->
      integrates (fun _ _ => improper) (fun z => lik E' (row_tensor (e_C E) (e_F E) z) None 0 y *
        tests (e_C E) (e_F E) (fun c f => between (lo n c f) (hi n c f)) z) ps (fun _ _ => None) (I n)) /\
    expect (normal_draw Tl means logvar En) (sample E (mkArgs (Some N) (CInt y) None false false Ts None))
      (batch_tests E N (fun n c f => between (lo n c f) (hi n c f))) = rprod N I.
Proof.
  intros g o E means logvar En Ts Tl N y lo hi ps HA Hco Lf HTs HTl HEn HB HK Hy HN Hps Hle.
  set (lf' := normal_leaf (e_F E) (e_C E) (e_L E) (e_R E) means (fun key => logvar key + ln Tl)).
  assert (SD: same_draws (leafE E) lf') by (rewrite Lf; split; reflexivity).
  set (E' := cool Ts lf' E). assert (L': leafE E' = lf') by apply leafE_cool.
  assert (A': accepted g (cooler o Ts lf') E') by (apply accepted_cool; auto; try apply SD; apply normal_leaf_ok).
  destruct (C53_normal_boxes_partial g _ E' means (fun key => logvar key + ln Tl) (normal_draw Tl means logvar En) N y lo hi ps A' Hco) as (I & HI & HX); auto.
  - apply normal_draw_ok; auto; lra.
  - intros key u v Huv. rewrite (C55_normal Tl means logvar En key u v); auto. rewrite normal_sigma_heat by auto. rewrite (Rmult_comm (sqrt Tl)). reflexivity.
  - exists E', I. rewrite L'. split; auto. split; auto. split; auto. rewrite <- HX.
    change (mkArgs (Some N) (CInt y) None false false Ts None) with (with_T (mkArgs (V := R) (Some N) (CInt y) None false false 1 None) Ts).
    rewrite (sample_cool Ts lf' E) by auto. reflexivity.
Qed.
Print Assumptions C55_normal_law_partial.
(** At temperature zero the leaf returns its mean; below zero it returns NaN. *)
Theorem C55_normal_extremes : forall mu sigma eps T, normal_sample 0 mu sigma eps = Fin mu /\ (T < 0 -> normal_sample T mu sigma eps = NaN).
Proof.
  intros mu sigma eps T. split.
  - rewrite normal_sample_fin, sqrt_0 by lra. f_equal. ring.
  - intros HT. unfold normal_sample, custom_sample, temper_sigma, nsqrt. destruct (Rle_dec 0 T); [lra|reflexivity].
Qed.
Print Assumptions C55_normal_extremes.

(** * temperature_leaves is ignored by the other leaves *)
(** Binomial with one trial and probability 1/4 at temperature 1/2: the code draws 0 with probability 3/4, the tempered
    distribution has 9/10. *)
Lemma feps_quarter : feps < 1 / 4.
Proof.
  unfold feps. rewrite <- (Rinv_inv (1/4)). apply Rinv_lt_contravar.
  - apply Rmult_lt_0_compat; [lra|]. apply pow_lt. lra.
  - replace (/ (1 / 4)) with (2 ^ 2) by field. apply Rlt_pow; [lra|lia].
Qed.
Theorem C55_binomial_refuted : ~ (forall T n p v, 0 < T -> (v <= n)%nat ->
  pval (binomial_lp (fst (temper_binomial T n p)) (snd (temper_binomial T n p)) v) =
  Rpower (pval (binomial_lp n p v)) (1 / T) / rsum (S n) (fun k => Rpower (pval (binomial_lp n p k)) (1 / T))).
Proof.
  intros H. specialize (H (1 / 2) 1%nat (1 / 4) 0%nat ltac:(lra) ltac:(lia)). cbn [temper_binomial fst snd] in H.
  assert (Q: clamp_probs (1/4) = 1/4). { pose proof feps_quarter. unfold clamp_probs, Rmax, Rmin. destruct (Rle_dec (1/4) feps), (Rle_dec _ (1 - feps)); lra. }
  assert (P0: pval (binomial_lp 1 (1 / 4) 0) = 3 / 4).
  { rewrite binomial_fin. cbn [pval]. rewrite rbinomial_eq, Q by lia. unfold Binomial.C. simpl. rewrite exp_ln; lra. }
  assert (P1: pval (binomial_lp 1 (1 / 4) 1) = 1 / 4).
  { rewrite binomial_fin. cbn [pval]. rewrite rbinomial_eq, Q by lia. unfold Binomial.C. simpl. rewrite exp_ln; lra. }
  assert (R2: forall x, 0 < x -> Rpower x (1 / (1 / 2)) = x * x).
  { intros x Hx. replace (1 / (1 / 2)) with (1 + 1) by field. rewrite Rpower_plus, Rpower_1 by auto. reflexivity. }
  rewrite !rsum_S, rsum_0, P0, P1, !R2 in H by lra. lra.
Qed.
Print Assumptions C55_binomial_refuted.

(** * Evidence *)
(** With evidence the components are chosen by the leaves as they are and the missing entries are drawn from the tempered leaves:
    [tempered lf lf' z] is the leaf layer with the densities of [lf] at the entries that [z] has and of [lf'] at the others. *)
Definition tempered (lf lf' : bleaf nat) (z : nat -> nat -> option nat) : bleaf nat :=
  mkLf (lf_C lf) (lf_F lf) (lf_L lf) (lf_R lf)
    (fun key v => match key with
       | [c; f; _; _] => match z c f with Some _ => lf_logp lf key v | None => lf_logp lf' key v end
       | _ => lf_logp lf key v end)
    (lf_supp lf) (lf_zero lf) (lf_mode lf) (lf_ctx lf).
Lemma cool_slay_one L : cool_slay 1 L = L.
Proof.
  destruct L as [a b c d lg]. unfold cool_slay. cbn [nf sin sout nrep logits]. f_equal. destruct lg as [s t]. unfold tmap. cbn [shape get]. f_equal.
  apply functional_extensionality. intros i. apply over_one.
Qed.
Lemma cool_layer_one l : cool_layer 1 l = l.
Proof. destruct l; cbn [cool_layer]; rewrite ?cool_slay_one; reflexivity. Qed.
Lemma fnet_cool lf' (E : einet nat) : fnet (cool 1 lf' E) = fnet E.
Proof.
  unfold cool. rewrite (map_ext (cool_layer 1) (fun l => l)) by apply cool_layer_one. rewrite map_id.
  assert (O: forall o, option_map (cool_slay 1) o = o) by (intros [s|]; cbn [option_map]; rewrite ?cool_slay_one; reflexivity). rewrite !O.
  unfold fnet, net_with, leaf_out, emix, fgrp. cbn [e_F e_C e_L e_R e_K e_leaf e_perm e_layers e_mixing]. destruct (e_leaf E); reflexivity.
Qed.

Lemma evidence_hot g o (E : einet nat) B lf' N e ms xs : accepted g o E -> consistent g -> discrete_leaf B (leafE E) ->
  leaf_ok lf' -> same_draws (leafE E) lf' -> discrete_leaf B lf' -> lf_ctx (leafE E) = true ->
  evidence E N e ms -> (0 < N)%nat -> in_support E B N xs -> respects E N e ms xs ->
  let hot := fun n => cool 1 (tempered (leafE E) lf' (observed e ms n)) E in
  (forall n, accepted g (cooler o 1 (leafE (hot n))) (hot n) /\ leafE (hot n) = tempered (leafE E) lf' (observed e ms n)) /\
  Pr B lf' (sample E (given e ms)) (rows_are N (e_C E) (e_F E) xs) =
  rprod N (fun n => rsum (e_K E) (fun y => cweight E (given e ms) n y * (lik (hot n) (one_row (e_C E) (e_F E) (xs n)) None 0 y / lik E e ms n y))).
Proof.
  intros HA Hco HB Hl' Hs HB' Hctx He HN Hx Hr hot.
  pose proof (accepted_ok g o E HA) as HE.
  assert (Dt: forall z, discrete_leaf B (tempered (leafE E) lf' z)).
  { intros z. split; [apply (dl_supp _ _ HB)|]. intros c f l r Hc Hf Hl Hr'. cbn [tempered lf_C lf_F lf_L lf_R lf_logp] in *.
    destruct (z c f); [apply (dl_sum _ _ HB); auto|]. apply (dl_sum _ _ HB'); rewrite ?(sd_C _ _ Hs), ?(sd_F _ _ Hs), ?(sd_L _ _ Hs), ?(sd_R _ _ Hs); auto. }
  assert (Ot: forall z, leaf_ok (tempered (leafE E) lf' z)).
  { pose proof (eo_leaf E HE) as HL. fold (leafE E) in HL. intros z. split; [apply HL|]. intros c f l r v Hc Hf Hl Hr' Hv. cbn [tempered lf_C lf_F lf_L lf_R lf_logp lf_supp] in *.
    destruct (z c f); [apply HL; auto|]. apply Hl'; rewrite ?(sd_C _ _ Hs), ?(sd_F _ _ Hs), ?(sd_L _ _ Hs), ?(sd_R _ _ Hs); auto.
    rewrite (dl_supp _ _ HB'). rewrite <- (dl_supp _ _ HB). auto. }
  assert (Ah: forall n, accepted g (cooler o 1 (leafE (hot n))) (hot n)).
  { intros n. unfold hot at 1. rewrite leafE_cool. apply accepted_cool; auto; lra. }
  split; [intros n; split; [auto|apply leafE_cool]|].
  set (a := given e ms). assert (EN: num_samples a = N) by (cbn; apply (batch_size E); apply He).
  set (E1 := cool 1 lf' E). assert (A1: accepted g (cooler o 1 lf') E1) by (apply accepted_cool; auto; try apply Hs; lra).
  assert (HB1: discrete_leaf B (leafE E1)) by (unfold E1; rewrite leafE_cool; auto).
  pose proof (EL_ok E1 (accepted_ok _ _ _ A1) B HB1) as X. unfold E1 in X at 1. rewrite leafE_cool in X.
  unfold Pr. destruct (sample_evidence_law E HE _ X a e eq_refl) as [_ L]; auto.
  - unfold check_args. cbn. destruct (e_K E =? 1)%nat; reflexivity.
  - rewrite EN. apply evidence_input; auto.
  - rewrite EN; auto.
  - rewrite (expect_ext _ X _ _ (fun o => rprod3 N (e_C E) (e_F E) (fun n c f => eqv (entry o n c f) (xs n c f)))) by (intros t; apply rows_are_rprod).
    rewrite EN in L. rewrite (L (agree_groups g o E HA Hco) (fun n c f v => eqv v (xs n c f))).
    apply rprod_ext. intros n Hn. apply rsum_ext. intros y Hy. f_equal. rewrite (lik_eval E HE N e ms n y) by (auto; apply evidence_input; auto).
    unfold Rdiv. f_equal. change (e_C E) with (e_C (hot n)) at 1. change (e_F E) with (e_F (hot n)) at 1.
    rewrite (lik_one_row (hot n) (accepted_ok _ _ _ (Ah n)) B (ltac:(unfold hot; rewrite leafE_cool; apply Dt))) by (auto; intros; apply Hx; auto).
    unfold hot at 1. rewrite fnet_cool. apply neteval_ext; [apply fnet_wf; auto|auto|].
    intros c f l r Hc Hf Hl Hr'. unfold lval, pdf. fold (leafE (hot n)). unfold hot. rewrite leafE_cool. cbn [tempered lf_logp]. rewrite observed_row. cbn [a given a_ms].
    destruct (row e ms n c f) as [v|] eqn:Ev.
    + rewrite (Hr n c f v) by (auto; rewrite observed_row; auto). unfold eqv. rewrite Nat.eqb_refl. fold (leafE E). ring.
    + pose proof (EL_point E1 (accepted_ok _ _ _ A1) B HB1 c f l r (xs n c f)) as P. unfold E1 in P. rewrite leafE_cool in P. unfold pdf in P. apply P; auto.
Qed.
(** Missing: temperature_sums other than one together with evidence (PropSteer.v); configurations that are not [consistent]. *)
Theorem C55_evidence_partial : forall g o (E : einet nat) B lf' N e ms xs,
  accepted g o E -> consistent g -> discrete_leaf B (leafE E) ->
  leaf_ok lf' -> same_draws (leafE E) lf' -> discrete_leaf B lf' -> lf_ctx (leafE E) = true ->
  evidence E N e ms -> (0 < N)%nat -> in_support E B N xs -> respects E N e ms xs ->
  exists hot : nat -> einet nat,
    (forall n, accepted g (cooler o 1 (leafE (hot n))) (hot n) /\ leafE (hot n) = tempered (leafE E) lf' (observed e ms n)) /\
    Pr B lf' (sample E (given e ms)) (rows_are N (e_C E) (e_F E) xs) =
    rprod N (fun n => if (1 <? e_K E)%nat
      then rsum (e_K E) (fun y => root_prior o E y * (lik (hot n) (one_row (e_C E) (e_F E) (xs n)) None 0 y / lik E e ms n y))
      else lik (hot n) (one_row (e_C E) (e_F E) (xs n)) None 0 0 / lik E e ms n 0).
Proof.
  intros g o E B lf' N e ms xs HA Hco HB Hl' Hs HB' Hctx He HN Hx Hr.
  destruct (evidence_hot g o E B lf' N e ms xs) as [H P]; auto. eexists. split; [exact H|]. rewrite P. apply rprod_ext. intros n Hn.
  destruct (Nat.ltb_spec 1 (e_K E)) as [HK|HK].
  - apply rsum_ext. intros y Hy. f_equal. unfold cweight. destruct (Nat.ltb_spec 1 (e_K E)); [|lia]. cbn [given a_class a_tsum]. apply (wroot_prior g); auto.
  - pose proof (accepted_ok g o E HA) as HE. assert (K1: e_K E = 1%nat) by (pose proof (eo_K E HE); lia). rewrite K1, rsum_1. unfold cweight. rewrite K1. cbn [Nat.ltb Nat.leb]. ring.
Qed.
Print Assumptions C55_evidence_partial.

(** * Concrete cases *)
Lemma leaf_sizes {V} g o (E : einet V) : accepted g o E -> lf_C (leafE E) = e_C E /\ lf_F (leafE E) = e_F E /\ lf_L (leafE E) = e_L E /\ lf_R (leafE E) = e_R E.
Proof. intros HA. pose proof (accepted_ok g o E HA) as HE. unfold leafE. rewrite (eo_lC E HE), (eo_lF E HE), (eo_lL E HE), (eo_lR E HE). auto. Qed.
(** Categorical leaves with three values; temperatures 2 and 1/2. *)
Definition cpar (key : list nat) (k : nat) : num := Fin (INR (list_sum key * k) / 7).
Definition ccell (n c f : nat) : nat := ((n + c + f) mod 3)%nat.
Example C55_categorical_law_ex : exists g o (E E' : einet nat), accepted g o E /\ e_F E = 5%nat /\ e_C E = 2%nat /\ e_R E = 2%nat /\ e_K E = 3%nat /\
  leafE E = categorical_leaf 5 2 2 2 3 cpar /\ leafE E' = categorical_leaf 5 2 2 2 3 (heat (1 / 2) cpar) /\ accepted g (cooler o 2 (leafE E')) E' /\
  Pr 3 (leafE E') (sample E (mkArgs (Some 2%nat) (CInt 1) None false false 2 None)) (rows_are 2 2 5 ccell) =
  rprod 2 (fun n => lik E' (one_row 2 5 (ccell n)) None 0 1).
Proof.
  destruct ex_td as (E0 & A0 & HF & HC & HR & HK & _ & _ & HL). set (lf := categorical_leaf 5 2 2 2 3 cpar). set (E := cool 1 lf E0).
  assert (Fc: forall key k, (k < 3)%nat -> isfin (cpar key k) = true) by reflexivity.
  destruct (leaf_sizes _ _ _ A0) as (SC & SF & SL & SR).
  assert (A: accepted ex_td_g (cooler ex_td_o 1 lf) E).
  { apply accepted_cool; auto; try lra; [apply categorical_leaf_ok; auto; lia| | | |]; rewrite ?SC, ?SF, ?SL, ?SR, ?HF, ?HC, ?HL, ?HR; reflexivity. }
  assert (Lf: leafE E = lf) by apply leafE_cool.
  destruct (C55_categorical_law_partial _ _ E 3 cpar 2 (1 / 2) 2 (CInt 1) 1 ccell A td_consistent) as (E' & A' & L' & _ & P); auto; try lra.
  - rewrite Lf. unfold E. cbn [cool e_F e_C e_L e_R]. rewrite HF, HC, HL, HR. reflexivity.
  - unfold E. cbn [cool e_K]. rewrite HK. right. repeat split; lia.
  - intros n c f _ _ _. apply Nat.mod_upper_bound. lia.
  - unfold E in P. cbn [cool e_F e_C e_L e_R] in P. rewrite HF, HC in P. fold E in P.
    assert (L2: leafE E' = categorical_leaf 5 2 2 2 3 (heat (1 / 2) cpar)) by (rewrite L'; unfold E; cbn [cool e_F e_C e_L e_R]; rewrite HF, HC, HL, HR; reflexivity).
    exists ex_td_g, (cooler ex_td_o 1 lf), E, E'. repeat (split; [assumption|]). exact P.
Qed.
(** Normal leaves; temperatures 3 and 1/4. *)
Example C55_normal_law_ex : exists g o (E E' : einet R) En I, accepted g o E /\ e_F E = 5%nat /\ e_C E = 2%nat /\ leafE E = normal_leaf 5 2 2 2 nmean nlogvar /\
  leafE E' = normal_leaf 5 2 2 2 nmean (fun key => nlogvar key + ln (1 / 4)) /\ accepted g (cooler o 3 (leafE E')) E' /\ leaf_expectation En /\
  (forall n, (n < 2)%nat -> integrates (fun _ _ => improper) (fun z => lik E' (row_tensor 2 5 z) None 0 1 *
      tests 2 5 (fun c f => between (INR n - 1) (INR n + INR (c + f))) z) (all_entries 2 5) (fun _ _ => None) (I n)) /\
  expect (normal_draw (1 / 4) nmean nlogvar En) (sample E (mkArgs (Some 2%nat) (CInt 1) None false false 3 None))
    (batch_tests E 2 (fun n c f => between (INR n - 1) (INR n + INR (c + f)))) = rprod 2 I.
Proof.
  destruct ex_n as (E & A & HF & HC & HR & HK & HL & Lf).
  set (p := fun _ : list nat => normal_pdf 0 1).
  assert (P: leaf_expectation (the_integral p)) by (apply the_integral_ok; intros; apply normal_mass; lra).
  pose proof (C55_normal_law_partial _ _ E nmean nlogvar (the_integral p) 3 (1 / 4) 2 1 (fun n _ _ => INR n - 1) (fun n c f => INR n + INR (c + f)) (all_entries 2 5) A td_consistent) as H.
  rewrite HF, HC, HK, HR, HL in H. destruct H as (E' & I & A' & L' & HI & HX); auto; try lia; try lra.
  - intros key u v Huv. apply the_integral_val. apply normal_between; auto; lra.
  - apply all_entries_missing.
  - intros n c f. pose proof (pos_INR (c + f)). lra.
  - exists ex_td_g, ex_n_o, E, E', (the_integral p), I. repeat (split; [assumption|]). exact HX.
Qed.
(** Coins with probability 1/3 at temperature 1/2 are coins with probability 1/5. *)
Definition fifth (key : list nat) : R := 1 / 5.
Lemma coin_draws F C L Rn : same_draws (coin third F C L Rn) (coin fifth F C L Rn).
Proof.
  split; try reflexivity. cbn [coin lf_mode]. f_equal. apply functional_extensionality. intros key. unfold third, fifth.
  destruct (Rle_dec (1 / 2) (1 / 5)), (Rle_dec (1 / 2) (1 / 3)); auto; lra.
Qed.
Example C55_evidence_ex : exists g o (E : einet nat) (hot : nat -> einet nat), accepted g o E /\ e_F E = 5%nat /\ e_R E = 2%nat /\ leafE E = coin third 5 1 2 2 /\
  (forall n, leafE (hot n) = tempered (coin third 5 1 2 2) (coin fifth 5 1 2 2) (ex_ev n)) /\
  Pr 2 (coin fifth 5 1 2 2) (sample E (given (two_rows 1 5 ex_ev) None)) (rows_are 2 1 5 alternating) =
  rprod 2 (fun n => lik (hot n) (one_row 1 5 (alternating n)) None 0 0 / lik E (two_rows 1 5 ex_ev) None n 0).
Proof.
  destruct ex_bu as (E0 & A0 & HF & HC & HR & HK & _ & _ & HL). set (lf := coin third 5 1 2 2). set (E := cool 1 lf E0).
  destruct (leaf_sizes _ _ _ A0) as (SC & SF & SL & SR).
  assert (A: accepted ex_bu_g (cooler ex_bu_o 1 lf) E).
  { apply accepted_cool; auto; try lra; [apply coin_ok| | | |]; rewrite ?SC, ?SF, ?SL, ?SR, ?HF, ?HC, ?HL, ?HR; reflexivity. }
  assert (Lf: leafE E = lf) by apply leafE_cool.
  assert (D: discrete_leaf 2 (leafE E)) by (rewrite Lf; apply coin_discrete; apply third_ok).
  destruct (C55_evidence_partial _ _ E 2 (coin fifth 5 1 2 2) 2 (two_rows 1 5 ex_ev) None alternating A bu_consistent D) as (hot & H & P).
  - apply coin_ok.
  - rewrite Lf. apply coin_draws.
  - apply coin_discrete. unfold fifth. intros; lra.
  - rewrite Lf. reflexivity.
  - split; [|exact I]. apply two_rows_batch; auto; [intros u; apply (dl_supp 2 _ D)|exact ex_ev_lt].
  - lia.
  - intros n c f _ _ _. apply alternating_lt.
  - intros n c f v Hn Hc Hf Hv. apply ex_ev_some. exact Hv.
  - exists ex_bu_g, (cooler ex_bu_o 1 lf), E, hot. split; [exact A|]. split; [exact HF|]. split; [exact HR|]. split; [exact Lf|]. split.
    + intros n. rewrite (proj2 (H n)), Lf. reflexivity.
    + change (e_C E) with (e_C E0) in P. change (e_F E) with (e_F E0) in P. change (e_K E) with (e_K E0) in P. rewrite HF, HC, HK in P. cbn [Nat.ltb Nat.leb] in P. exact P.
Qed.
