(** Theorems about the leaf families (C30, C37, C47). *)
From Coq Require Import List Arith Lia Bool ZArith Reals Lra.
Import ListNotations.
From Verif Require Import Base RSum Num Tensor TypeChecks Leaf RefFwd RefLeaf Einet Build RefBuild Spec Family RefFamily Ex PropForward.
Local Open Scope R_scope.

(** * C30: leaf modes *)
(** [p] is the number that torch.sigmoid returned for the parameter: any number from 0 to 1. *)
Theorem C30_bernoulli : forall p, 0 <= p <= 1 ->
  (bernoulli_mode p < 2)%nat /\
  forall v, (v < 2)%nat -> exists a b, bernoulli_lp p v = Fin a /\ bernoulli_lp p (bernoulli_mode p) = Fin b /\ a <= b.
Proof.
  intros p Hp. split; [unfold bernoulli_mode; destruct (Rle_dec (1/2) p); lia|]. intros v Hv. rewrite !bernoulli_fin.
  do 2 eexists. split; [reflexivity|]. split; [reflexivity|].
  pose proof (clamp_pos p) as H. unfold bernoulli_mode.
  assert (L: forall x y, 0 < x -> x <= y -> ln x <= ln y) by (intros x y Hx [Hy|Hy]; [left; apply ln_increasing; auto|rewrite Hy; lra]).
  destruct v as [|[|v]]; [| |lia]; destruct (Rle_dec (1/2) p) as [G|G]; rewrite ?bernoulli_one, ?bernoulli_zero; try lra; apply L; try lra.
  - pose proof (clamp_half p G). lra.
  - apply Rnot_le_lt in G. pose proof (clamp_half_lt p G). lra.
Qed.
Print Assumptions C30_bernoulli.
Example C30_bernoulli_ex : bernoulli_mode (rsigmoid 0) = 1%nat.
Proof. unfold bernoulli_mode, rsigmoid. rewrite Ropp_0, exp_0. destruct (Rle_dec _ _); [reflexivity|]. exfalso. lra. Qed.

(** Binomial: proved when the sigmoid has not rounded to one and total_count + 1 <= 2^23. *)
Theorem C30_binomial_partial : forall n p, 0 <= p < 1 -> (INR n + 1) * feps <= 1 ->
  (binomial_mode n p <= n)%nat /\
  forall v, (v <= n)%nat -> exists a b, binomial_lp n p v = Fin a /\ binomial_lp n p (binomial_mode n p) = Fin b /\ a <= b.
Proof.
  intros n p Hp Hn. destruct (binomial_mode_max n p Hp Hn) as [A B]. split; auto. intros v Hv. rewrite !binomial_fin. do 2 eexists. split; [reflexivity|]. split; [reflexivity|]. apply B; auto.
Qed.
Print Assumptions C30_binomial_partial.
Lemma sigmoid_range x : 0 < rsigmoid x < 1.
Proof.
  unfold rsigmoid. pose proof (exp_pos (- x)) as P. split; [apply Rinv_0_lt_compat; lra|].
  rewrite <- Rinv_1. apply Rinv_lt_contravar; lra.
Qed.
Lemma feps_256 : (INR 255 + 1) * feps <= 1.
Proof.
  assert (E: INR 255 + 1 = 2 ^ 8) by (rewrite INR_IZR_INZ; cbn [Z.of_nat Pos.of_succ_nat Pos.succ]; lra).
  rewrite E. unfold feps. apply Rmult_le_reg_r with (2 ^ 23); [apply pow_lt; lra|]. rewrite Rmult_assoc, Rinv_l, Rmult_1_r, Rmult_1_l by (apply pow_nonzero; lra).
  apply Rle_pow; [lra|lia].
Qed.
Example C30_binomial_ex : forall x, let p := rsigmoid x in
  (binomial_mode 255 p <= 255)%nat /\ exists a b, binomial_lp 255 p 17 = Fin a /\ binomial_lp 255 p (binomial_mode 255 p) = Fin b /\ a <= b.
Proof.
  intros x p. pose proof (sigmoid_range x) as H. destruct (C30_binomial_partial 255 p) as [A B]; [unfold p; lra|apply feps_256|]. split; auto. apply B. lia.
Qed.
(** When the sigmoid rounds to one, as float32 does from 17 on, the mode is total_count + 1: outside the support. *)
Theorem C30_binomial_saturated_refuted : forall n, binomial_mode n 1 = S n.
Proof.
  intros n. unfold binomial_mode. rewrite Rmult_1_l, <- S_INR, INR_IZR_INZ. rewrite Int_part_INR || idtac.
  assert (E: Int_part (IZR (Z.of_nat (S n))) = Z.of_nat (S n)).
  { unfold Int_part. rewrite <- (tech_up (IZR (Z.of_nat (S n))) (Z.of_nat (S n) + 1)); [lia| |]; rewrite plus_IZR; lra. }
  rewrite E. apply Nat2Z.id.
Qed.
Print Assumptions C30_binomial_saturated_refuted.
(** For counts above 2^23 the clamp of log_prob moves the maximum, but not the mode. *)
Theorem C30_binomial_large_refuted : forall n, 1 < INR n * feps ->
  binomial_mode n 0 = 0%nat /\ exists a b, binomial_lp n 0 0 = Fin a /\ binomial_lp n 0 1 = Fin b /\ a < b.
Proof.
  intros n Hn. split.
  - unfold binomial_mode. rewrite Rmult_0_l. assert (E: Int_part 0 = 0%Z) by (unfold Int_part; rewrite <- (tech_up 0 1); [reflexivity|lra|lra]). rewrite E. reflexivity.
  - rewrite !binomial_fin. do 2 eexists. split; [reflexivity|]. split; [reflexivity|].
    assert (Hn0: (0 < n)%nat) by (destruct n; [simpl in Hn; lra|lia]).
    pose proof (binomial_step n 0 0 Hn0) as E. pose proof (clamp_pos 0) as H. pose proof feps_pos as Pe. pose proof feps_half as Pe'.
    assert (Q: clamp_probs 0 = feps). { unfold clamp_probs, Rmax, Rmin. destruct (Rle_dec 0 feps), (Rle_dec _ (1 - feps)); lra. }
    rewrite Nat.sub_0_r, Q in E. simpl (INR 1) in E. rewrite Rmult_1_l in E.
    assert (0 < ln (INR n * feps / (1 - feps))); [|lra]. rewrite <- ln_1. apply ln_increasing; [lra|].
    apply Rmult_lt_reg_r with (1 - feps); [lra|]. unfold Rdiv. rewrite Rmult_assoc, Rinv_l by lra. lra.
Qed.
Print Assumptions C30_binomial_large_refuted.
Example C30_large_ex : exists n, 1 < INR n * feps.
Proof.
  exists (Z.to_nat (up (/ feps))). pose proof feps_pos as P. destruct (archimed (/ feps)) as [A _].
  assert (0 < / feps) by (apply Rinv_0_lt_compat; auto). assert (0 < up (/ feps))%Z by (apply lt_IZR; lra).
  rewrite INR_IZR_INZ, Z2Nat.id by lia. apply Rmult_lt_reg_r with (/ feps); auto. rewrite Rmult_assoc, Rinv_r by lra. lra.
Qed.

Theorem C30_categorical : forall K (l : nat -> num), (0 < K)%nat -> (forall k, (k < K)%nat -> isfin (l k) = true) ->
  (categorical_mode K l < K)%nat /\
  forall v, (v < K)%nat -> exists a b, categorical_lp K l v = Fin a /\ categorical_lp K l (categorical_mode K l) = Fin b /\ a <= b.
Proof.
  intros K l HK Hl. assert (H: forall k, (k < K)%nat -> l k = Fin (toR (l k))) by (intros k Hk; apply isfin_Fin; auto).
  destruct (rcat_mode_max K (fun k => toR (l k)) HK) as [A B].
  rewrite (cat_mode_fin K l (fun k => toR (l k))) by auto. split; auto. intros v Hv. unfold categorical_lp.
  rewrite !(cat_logits_fin K l (fun k => toR (l k))) by auto. do 2 eexists. split; [reflexivity|]. split; [reflexivity|]. apply B; auto.
Qed.
Print Assumptions C30_categorical.
Example C30_categorical_ex : let l := fun k => Fin (INR k) in categorical_mode 3 l = 2%nat.
Proof.
  intros l. destruct (C30_categorical 3 l) as [A B]; [lia|reflexivity|].
  destruct (B 2%nat) as (a & b & Ea & Eb & Hab); [lia|]. unfold categorical_lp in *.
  rewrite (cat_logits_fin 3 l INR) in Ea by (auto; lia). rewrite (cat_logits_fin 3 l INR) in Eb by auto.
  injection Ea as <-. injection Eb as <-. rewrite !rlog_softmax_twice in Hab by lia. unfold rlog_softmax in Hab.
  assert (INR 2 <= INR (categorical_mode 3 l)) by lra. apply INR_le in H. lia.
Qed.

(** Normal: any positive standard deviation. *)
Theorem C30_normal : forall mu sigma x, 0 < sigma ->
  exists a b, normal_lp mu sigma x = Fin a /\ normal_lp mu sigma (normal_mode mu) = Fin b /\ a <= b.
Proof. intros mu sigma x H. rewrite !normal_fin by auto. do 2 eexists. split; [reflexivity|]. split; [reflexivity|]. apply normal_mode_max; auto. Qed.
Print Assumptions C30_normal.
Example C30_normal_ex : exists a b, normal_lp 2 (normal_sigma 3) 5 = Fin a /\ normal_lp 2 (normal_sigma 3) 2 = Fin b /\ a <= b.
Proof. apply C30_normal. apply exp_pos. Qed.

(** * C47: leaf families are normalized *)
(** [sgm] is torch.sigmoid, with or without rounding.  A leaf layer of any size: log-probabilities are finite and
    the probabilities of its values sum to one at every position. *)
Theorem C47_bernoulli : forall sgm F C L Rn par, discrete_leaf 2 (bernoulli_leaf sgm F C L Rn par) /\
  (forall key v, isfin (lf_logp (bernoulli_leaf sgm F C L Rn par) key v) = true).
Proof.
  intros. split; [split; [reflexivity|]|].
  - intros c f l r _ _ _ _. cbn [lf_logp bernoulli_leaf]. rewrite !rsum_S, rsum_0, !bernoulli_fin, bernoulli_one, bernoulli_zero. cbn [pval].
    pose proof (clamp_pos (sgm (par [c; f; l; r]))). rewrite !exp_ln by lra. ring.
  - intros. cbn [lf_logp bernoulli_leaf]. rewrite bernoulli_fin. reflexivity.
Qed.
Print Assumptions C47_bernoulli.
Theorem C47_binomial : forall sgm F C L Rn n par, discrete_leaf (S n) (binomial_leaf sgm F C L Rn n par) /\
  (forall key v, isfin (lf_logp (binomial_leaf sgm F C L Rn n par) key v) = true).
Proof.
  intros. split; [split; [reflexivity|]|].
  - intros c f l r _ _ _ _. cbn [lf_logp binomial_leaf].
    rewrite (rsum_ext _ _ (fun v => exp (rbinomial n (sgm (par [c; f; l; r])) v))); [apply binomial_sum|]. intros v _. rewrite binomial_fin. reflexivity.
  - intros. cbn [lf_logp binomial_leaf]. rewrite binomial_fin. reflexivity.
Qed.
Print Assumptions C47_binomial.
Theorem C47_categorical : forall F C L Rn K (par : list nat -> nat -> num), (0 < K)%nat -> (forall key k, (k < K)%nat -> isfin (par key k) = true) ->
  discrete_leaf K (categorical_leaf F C L Rn K par) /\
  (forall key v, (v < K)%nat -> isfin (lf_logp (categorical_leaf F C L Rn K par) key v) = true).
Proof.
  intros F C L Rn K par HK Hp.
  assert (H: forall key v, (v < K)%nat -> categorical_lp K (par key) v = Fin (rcat K (fun k => toR (par key k)) v)).
  { intros key v Hv. apply cat_logits_fin; auto. intros k Hk. apply isfin_Fin; auto. }
  split; [split; [reflexivity|]|].
  - intros c f l r _ _ _ _. cbn [lf_logp categorical_leaf].
    rewrite (rsum_ext _ _ (fun v => exp (rcat K (fun k => toR (par [c; f; l; r] k)) v))); [apply categorical_sum; auto|]. intros v Hv. rewrite H by auto. reflexivity.
  - intros key v Hv. cbn [lf_logp categorical_leaf]. rewrite H by auto. reflexivity.
Qed.
Print Assumptions C47_categorical.
(** The mass of the support is known without the model: the values of a Binomial leaf are 0 .. total_count. *)
Example C47_binomial_ex : exists a b c, binomial_lp 2 (1/2) 0 = Fin a /\ binomial_lp 2 (1/2) 1 = Fin b /\ binomial_lp 2 (1/2) 2 = Fin c /\
  exp a = 1/4 /\ exp b = 1/2 /\ exp c = 1/4.
Proof.
  rewrite !binomial_fin. do 3 eexists. do 3 (split; [reflexivity|]).
  assert (Q: clamp_probs (1/2) = 1/2). { pose proof feps_half. unfold clamp_probs, Rmax, Rmin. destruct (Rle_dec (1/2) feps), (Rle_dec _ (1 - feps)); lra. }
  rewrite !rbinomial_eq by lia. rewrite Q. unfold Binomial.C. simpl.
  repeat split; rewrite exp_ln; lra.
Qed.
(** Networks with these leaves are normalized (C01). *)
Theorem C47_network : forall g o (E : einet nat) B k,
  accepted g o E -> (k < e_K E)%nat ->
  (exists sgm F C L Rn par, B = 2%nat /\ leafE E = bernoulli_leaf sgm F C L Rn par) \/
  (exists sgm F C L Rn n par, B = S n /\ leafE E = binomial_leaf sgm F C L Rn n par) \/
  (exists F C L Rn par, (0 < B)%nat /\ (forall key j, (j < B)%nat -> isfin (par key j) = true) /\ leafE E = categorical_leaf F C L Rn B par) ->
  lsum (fun w => lik E (point (e_C E) (e_F E) w) None 0 k) (vectors B (e_C E * e_F E)) = 1.
Proof.
  intros g o E B k HA Hk H. apply (C01_normalized g o E B k HA); auto.
  destruct H as [(sgm & F & C & L & Rn & par & -> & HL)|[(sgm & F & C & L & Rn & n & par & -> & HL)|(F & C & L & Rn & par & HB & Hp & HL)]]; rewrite HL.
  - apply C47_bernoulli.
  - apply C47_binomial.
  - apply C47_categorical; auto.
Qed.
Print Assumptions C47_network.

(** A built network with Binomial leaves of eight trials. *)
Definition ex_bin_leaf (F C L Rn : nat) : bleaf nat := binomial_leaf rsigmoid F C L Rn 8 (fun key => INR (list_sum key)).
Definition ex_bin_o : oracle nat :=
  mkOracle (fun i idx => grow (i :: idx)) grow grow grow [1; 2; 1; 1]%nat ex_td_perm (fun F C L R => Ok (ex_bin_leaf F C L R)).
Lemma ex_bin : exists E, accepted ex_td_g ex_bin_o E /\ e_F E = 5%nat /\ e_C E = 2%nat /\ e_K E = 3%nat /\ leafE E = ex_bin_leaf 5 2 2 2.
Proof.
  assert (O: oracle_ok ex_td_g ex_bin_o).
  { destruct ex_td_oracle. split; cbn [ex_bin_o o_logits o_top o_mix o_root o_sizes o_perm o_leaf] in *; auto.
    unfold ex_td_g, plain. cbn [g_F g_C g_L g_R]. rewrite !nval_nat. eexists. split; [reflexivity|]. split; [|repeat split].
    split; [reflexivity|]. intros. apply C47_binomial. }
  destruct (build_succeeds ex_td_g ex_bin_o) as (E & HE); auto.
  - apply plain_valid; try lia; try lra; try congruence. simpl; lia.
  - exists 0%R. split; [constructor|lra].
  - cbn [ex_td_g plain g_depth zval]. lia.
  - discriminate.
  - exists E. split; [split; auto|]. destruct (build_inv ex_td_g ex_bin_o E eq_refl O HE) as (_ & EF & EC & ER & EK).
    cbn [ex_td_g plain g_F g_C g_R g_K] in *. rewrite nval_nat in *. repeat (split; [assumption|]).
    unfold build in HE. apply bind_ok in HE as ([] & _ & HE). cbn [ex_td_g plain g_struct] in HE. unfold build_top_down in HE.
    apply bind_ok in HE as (? & _ & HE). apply bind_ok in HE as (? & _ & HE). apply bind_ok in HE as (? & _ & HE).
    apply bind_ok in HE as (lf & Hl & HE). apply bind_ok in HE as (? & _ & HE). apply bind_ok in HE as (? & _ & HE).
    inversion HE. unfold leafE. cbn [e_leaf]. unfold build_input in Hl. cbn [ex_bin_o o_leaf] in Hl.
    unfold ex_td_g, plain in Hl. cbn [g_F g_C g_L g_R] in Hl. rewrite !nval_nat in Hl. cbn [bind Nat.eqb] in Hl. inversion Hl. reflexivity.
Qed.
Example C47_network_ex : exists E, accepted ex_td_g ex_bin_o E /\ lsum (fun w => lik E (point 2 5 w) None 0 1) (vectors 9 10) = 1.
Proof.
  destruct ex_bin as (E & HA & HF & HC & HK & HL). exists E. split; auto.
  pose proof (C47_network _ _ E 9 1%nat HA) as H. rewrite HF, HC, HK in H. apply H; [lia|]. right. left. unfold ex_bin_leaf in HL. do 7 eexists. split; [|exact HL]. reflexivity.
Qed.

(** * C37: RatNormal bounds *)
(** For accepted finite bounds with 0 <= min_sigma and max_sigma <> 0. *)
Theorem C37_sigma_partial : forall mins maxs minm maxm r lo hi std,
  rat_new mins maxs minm maxm = Ok r -> is_num mins TFloat (Fin lo) -> is_num maxs TFloat (Fin hi) -> 0 <= lo -> hi <> 0 ->
  exists s, rat_sigma r std = Fin s /\ lo < s < hi /\ 0 < s.
Proof.
  intros mins maxs minm maxm r lo hi std H Hlo Hhi H0 Hne. unfold rat_new in H.
  apply bind_ok in H as (a & Ha & H). apply bind_ok in H as (b & Hb & H). apply bind_ok in H as (c & Hc & H). apply bind_ok in H as (d & Hd & H).
  injection H as <-.
  assert (A: a = VFloat (Fin lo) /\ lo < hi).
  { inversion Hlo; subst; inversion Hhi; subst; unfold check_valid, check_bounds in Ha; cbn [check_type check_type_core check_type_numpy check_type_torch bind as_bound truthy conv_bound numval conv_value nltb] in Ha;
    destruct (Req_EM_T 0 0) as [_|]; try lra; destruct (Req_EM_T hi 0) as [|_]; try lra; cbn [bind] in Ha; destruct (Rlt_dec lo hi); cbn [guard bind] in Ha; try discriminate; injection Ha as <-; auto. }
  assert (B: b = VFloat (Fin hi)).
  { inversion Hhi; subst; unfold check_valid in Hb; cbn [check_type check_type_core check_type_numpy check_type_torch bind conv_value] in Hb; apply bind_ok in Hb as ([] & _ & Hb); injection Hb as <-; reflexivity. }
  destruct A as [-> Hlt]. subst b. unfold rat_sigma. cbn [r_min_sigma r_max_sigma numval nltb]. destruct (Rlt_dec lo hi); [|contradiction].
  unfold nsigmoid. cbn [nsub nneg nadd nmul]. eexists. split; [reflexivity|]. pose proof (sigmoid_range std) as S.
  assert (P: 0 < (hi + - lo) * rsigmoid std) by (apply Rmult_lt_0_compat; lra).
  assert (Q: (hi + - lo) * rsigmoid std < hi + - lo) by (rewrite <- (Rmult_1_r (hi + - lo)) at 2; apply Rmult_lt_compat_l; lra). lra.
Qed.
Print Assumptions C37_sigma_partial.
Example C37_default_ex : exists r, rat_new (VFloat (Fin (1/10))) (VFloat (Fin 1)) VNone VNone = Ok r /\
  forall std, exists s, rat_sigma r std = Fin s /\ 1/10 < s < 1.
Proof.
  assert (E: exists r, rat_new (VFloat (Fin (1/10))) (VFloat (Fin 1)) VNone VNone = Ok r).
  { unfold rat_new, check_valid, check_bounds. cbn [check_type check_type_core bind as_bound truthy conv_bound numval conv_value nltb].
    destruct (Req_EM_T 0 0) as [_|]; [|lra]. destruct (Req_EM_T 1 0) as [|_]; [lra|]. destruct (Rlt_dec (1/10) 1) as [_|]; [|lra]. cbn [guard bind].
    destruct (Req_EM_T (1/10) 0) as [|_]; [lra|]. unfold nge. cbn [nltb isnan]. destruct (Rlt_dec 1 (1/10)) as [|_]; [lra|]. cbn [negb andb guard bind]. eauto. }
  destruct E as (r & Er). exists r. split; auto. intros std. destruct (C37_sigma_partial _ _ _ _ r (1/10) 1 std Er) as (s & Es & Hs & _); try constructor; try lra. eauto.
Qed.
(** A negative min_sigma is accepted, because check_valid ignores the lower bound 0.0 (C21). *)
Theorem C37_negative_refuted : exists r std, rat_new (VFloat (Fin (-1))) (VFloat (Fin 1)) VNone VNone = Ok r /\ rat_sigma r std = Fin 0.
Proof.
  eexists. exists 0. split.
  - unfold rat_new, check_valid, check_bounds. cbn [check_type check_type_core bind as_bound truthy conv_bound numval conv_value nltb].
    destruct (Req_EM_T 0 0) as [_|]; [|lra]. destruct (Req_EM_T 1 0) as [|_]; [lra|]. destruct (Rlt_dec (-1) 1) as [_|]; [|lra]. cbn [guard bind].
    destruct (Req_EM_T (-1) 0) as [|_]; [lra|]. unfold nge. cbn [nltb isnan]. destruct (Rlt_dec 1 (-1)) as [|_]; [lra|]. cbn [negb andb guard bind]. reflexivity.
  - unfold rat_sigma, nsigmoid, rsigmoid. cbn [r_min_sigma r_max_sigma numval nltb]. destruct (Rlt_dec (-1) 1); [|lra]. cbn [nsub nneg nadd nmul].
    f_equal. rewrite Ropp_0, exp_0. field.
Qed.
Print Assumptions C37_negative_refuted.
(** min_sigma = max_sigma = 0.0 is accepted, and the standard deviation is then 1.0. *)
Theorem C37_zero_refuted : exists r, rat_new (VFloat (Fin 0)) (VFloat (Fin 0)) VNone VNone = Ok r /\ forall std, rat_sigma r std = Fin 1.
Proof.
  eexists. split.
  - unfold rat_new, check_valid, check_bounds. cbn [check_type check_type_core bind as_bound truthy conv_bound numval conv_value nltb].
    destruct (Req_EM_T 0 0) as [_|]; [|lra]. cbn [guard bind]. reflexivity.
  - intros std. unfold rat_sigma. cbn [r_min_sigma r_max_sigma numval nltb]. destruct (Rlt_dec 0 0); [lra|]. reflexivity.
Qed.
Print Assumptions C37_zero_refuted.
(** An infinite max_sigma is accepted, and every standard deviation is then infinite. *)
Theorem C37_infinite_refuted : exists r, rat_new (VFloat (Fin (1/10))) (VFloat PInf) VNone VNone = Ok r /\ forall std, rat_sigma r std = PInf.
Proof.
  eexists. split.
  - unfold rat_new, check_valid, check_bounds. cbn [check_type check_type_core bind as_bound truthy conv_bound numval conv_value nltb].
    destruct (Req_EM_T 0 0) as [_|]; [|lra]. cbn [guard bind].
    destruct (Req_EM_T (1/10) 0) as [|_]; [lra|]. unfold nge. cbn [nltb isnan negb andb guard bind]. reflexivity.
  - intros std. unfold rat_sigma, nsigmoid. cbn [r_min_sigma r_max_sigma numval nltb nsub nneg nadd nmul]. pose proof (sigmoid_range std).
    destruct (Rlt_dec 0 (rsigmoid std)); [reflexivity|lra].
Qed.
Print Assumptions C37_infinite_refuted.

(** Means: both bounds given and max_mean other than 0.0. *)
Theorem C37_mean_partial : forall mins maxs minm maxm r lo hi mean,
  rat_new mins maxs minm maxm = Ok r -> is_num minm TFloat (Fin lo) -> is_num maxm TFloat (Fin hi) -> hi <> 0 ->
  exists m, rat_mean r mean = Ok (Fin m) /\ lo < m < hi.
Proof.
  intros mins maxs minm maxm r lo hi mean H Hlo Hhi Hne. unfold rat_new in H.
  apply bind_ok in H as (a & Ha & H). apply bind_ok in H as (b & Hb & H). apply bind_ok in H as (c & Hc & H). apply bind_ok in H as (d & Hd & H).
  injection H as <-.
  assert (A: c = VFloat (Fin lo) /\ lo < hi).
  { inversion Hlo; subst; inversion Hhi; subst; unfold check_valid, check_bounds in Hc; cbn [check_type check_type_core check_type_numpy check_type_torch bind as_bound truthy conv_bound numval conv_value nltb] in Hc;
    destruct (Req_EM_T hi 0) as [|_]; try lra; cbn [bind] in Hc; destruct (Rlt_dec lo hi); cbn [guard bind] in Hc; try discriminate; injection Hc as <-; auto. }
  assert (B: d = VFloat (Fin hi)).
  { inversion Hhi; subst; unfold check_valid in Hd; cbn [check_type check_type_core check_type_numpy check_type_torch bind conv_value] in Hd; apply bind_ok in Hd as ([] & _ & Hd); injection Hd as <-; reflexivity. }
  destruct A as [-> Hlt]. subst d. unfold rat_mean. cbn [r_min_mean r_max_mean as_bound truthy numval]. destruct (Req_EM_T hi 0); [contradiction|].
  unfold nsigmoid. cbn [nsub nneg nadd nmul]. eexists. split; [reflexivity|]. pose proof (sigmoid_range mean) as S.
  assert (P: 0 < rsigmoid mean * (hi + - lo)) by (apply Rmult_lt_0_compat; lra).
  assert (Q: rsigmoid mean * (hi + - lo) < hi + - lo) by (rewrite <- (Rmult_1_l (hi + - lo)) at 2; apply Rmult_lt_compat_r; lra). lra.
Qed.
Print Assumptions C37_mean_partial.
(** With max_mean = 0.0 the bounds are accepted and ignored. *)
Theorem C37_zero_mean_refuted : exists r, rat_new (VFloat (Fin (1/10))) (VFloat (Fin 1)) (VFloat (Fin (-1))) (VFloat (Fin 0)) = Ok r /\
  forall mean, rat_mean r mean = Ok (Fin mean).
Proof.
  eexists. split.
  - unfold rat_new, check_valid, check_bounds. cbn [check_type check_type_core bind as_bound truthy conv_bound numval conv_value nltb].
    destruct (Req_EM_T 0 0) as [_|]; [|lra]. destruct (Req_EM_T 1 0) as [|_]; [lra|]. destruct (Rlt_dec (1/10) 1) as [_|]; [|lra]. cbn [guard bind].
    destruct (Req_EM_T (1/10) 0) as [|_]; [lra|]. destruct (Req_EM_T (-1) 0) as [|_]; [lra|]. unfold nge. cbn [nltb isnan]. destruct (Rlt_dec 1 (1/10)) as [|_]; [lra|].
    destruct (Rlt_dec 0 (-1)) as [|_]; [lra|]. cbn [negb andb guard bind]. reflexivity.
  - intros mean. unfold rat_mean. cbn [r_max_mean as_bound truthy]. destruct (Req_EM_T 0 0); [reflexivity|lra].
Qed.
Print Assumptions C37_zero_mean_refuted.
(** max_mean without min_mean is accepted, and every use of the leaf then raises. *)
Theorem C37_max_mean_only : forall mins maxs maxm r hi mean,
  rat_new mins maxs VNone maxm = Ok r -> is_num maxm TFloat (Fin hi) -> hi <> 0 -> rat_mean r mean = Err AssertionError.
Proof.
  intros mins maxs maxm r hi mean H Hhi Hne. unfold rat_new in H.
  apply bind_ok in H as (a & Ha & H). apply bind_ok in H as (b & Hb & H). apply bind_ok in H as (c & Hc & H). apply bind_ok in H as (d & Hd & H).
  injection H as <-. cbn [check_valid] in Hc. injection Hc as <-.
  assert (B: d = VFloat (Fin hi)).
  { inversion Hhi; subst; unfold check_valid in Hd; cbn [check_type check_type_core check_type_numpy check_type_torch bind conv_value] in Hd; apply bind_ok in Hd as ([] & _ & Hd); injection Hd as <-; reflexivity. }
  subst d. unfold rat_mean. cbn [r_max_mean r_min_mean as_bound truthy]. destruct (Req_EM_T hi 0); [contradiction|]. reflexivity.
Qed.
Print Assumptions C37_max_mean_only.
