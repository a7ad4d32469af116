(** Rounding errors of the forward pass: from the leaves to the root. *)
From Coq Require Import List Arith Lia Bool Reals Lra Psatz.
Import ListNotations.
From Verif Require Import Base RSum Num Tensor Layers Circuit Net RefFwd Leaf Einet RefNet RefEinet Float RefFloat.
Local Open Scope R_scope.
Local Arguments Nat.div : simpl never.
Local Arguments Nat.modulo : simpl never.
Local Arguments Nat.mul : simpl never.
Local Arguments Nat.add : simpl never.

(** * Weights are bounded below *)
Definition wlow (Lam : R) (K : nat) : R := exp (- (2 * Lam)) / INR K.
Lemma wlow_pos Lam K : (0 < K)%nat -> 0 < wlow Lam K.
Proof. intros H. apply Rdiv_lt_0_compat; [apply exp_pos|apply lt_0_INR; auto]. Qed.
Lemma wlow_le Lam K lg k : (k < K)%nat -> (forall i, (i < K)%nat -> Rabs (lg i) <= Lam) -> wlow Lam K <= rsoftmax K lg k.
Proof.
  intros Hk H. assert (PK: 0 < INR K) by (apply lt_0_INR; lia). unfold rsoftmax, wlow.
  assert (S0: 0 < rsum K (fun j => exp (lg j))) by (apply rsum_pos; [lia|intros; apply exp_pos]).
  assert (S: rsum K (fun j => exp (lg j)) <= INR K * exp Lam).
  { rewrite <- rsum_const. apply rsum_le. intros j Hj. apply exp_le_mono. specialize (H j Hj). apply Rabs_le_iff in H. lra. }
  assert (T: exp (- Lam) <= exp (lg k)) by (apply exp_le_mono; specialize (H k Hk); apply Rabs_le_iff in H; lra).
  apply Rmult_le_reg_r with (rsum K (fun j => exp (lg j))); auto. unfold Rdiv at 2. rewrite Rmult_assoc, Rinv_l, Rmult_1_r by lra.
  eapply Rle_trans; [apply Rmult_le_compat_l; [left; apply (wlow_pos Lam K); lia|exact S]|]. unfold Rdiv.
  replace (exp (- (2 * Lam)) * / INR K * (INR K * exp Lam)) with (exp (- (2 * Lam)) * exp Lam * (INR K * / INR K)) by ring.
  rewrite Rinv_r by lra. rewrite Rmult_1_r, <- exp_plus. replace (- (2 * Lam) + Lam) with (- Lam) by ring. auto.
Qed.
Lemma wsoft1 K f k : (k < K)%nat -> wsoft K 1 f k = rsoftmax K (fun k => toR (f k)) k.
Proof. intros Hk. unfold wsoft. apply rsoftmax_ext; auto. intros. unfold Rdiv. rewrite Rinv_1. ring. Qed.

(** * Bounds on all logits of the network *)
Definition logits_in (Lam : R) (lg : tensor num) (s : list nat) : Prop := forall idx, inb s idx -> Rabs (lgR lg idx) <= Lam.
Definition layer_logits (Lam : R) (l : layer) : Prop :=
  match l with
  | LEin L => logits_in Lam (logits L) (einsum_weight_shape L)
  | LLin L => logits_in Lam (logits L) (linsum_weight_shape L)
  | LLin2 L => logits_in Lam (logits L) (linsum2_weight_shape L)
  | LSum L => logits_in Lam (logits L) (sum_weight_shape L)
  | LRoot _ => True
  end.

Section Acc.
Variables (A : arith) (Lam u eta : R) (uw g : nat -> R).
Hypothesis HA : accurate A Lam u eta uw g.
Hypothesis Hu : 0 <= u <= 1.
Hypothesis Heta : 0 <= eta.
Hypothesis Huw : forall n, 0 <= uw n.
Hypothesis Hg : forall n, 0 <= g n.

(** Log-values [v] are within [e] of the logarithms of the values [x], which are at most [B] in magnitude. *)
Definition near (D S Rn : nat) (v : lvals) (x : vals) (B e : R) : Prop :=
  forall d o r, (d < D)%nat -> (o < S)%nat -> (r < Rn)%nat -> 0 < x d o r /\ Rabs (ln (x d o r)) <= B /\ Rabs (v d o r - ln (x d o r)) <= e.

Definition W (K : nat) : R := - ln (wlow Lam K).
(** Magnitude and error after a layer *)
Definition layer_B (l : layer) (B : R) : R :=
  match l with LEin _ | LLin _ | LLin2 _ => 2 * B | LSum _ => B | LRoot D => INR D * B end.
Definition layer_e (l : layer) (B e : R) : R :=
  match l with
  | LEin L => 2 * e + ein_tau u eta uw g (sin L) (B + e) (wlow Lam (sin L * sin L))
  | LLin L => 2 * e + linsum_tau u eta uw g (sin L) (B + e) (W (sin L))
  | LLin2 L => let e1 := e + wsum_tau u eta uw g (sin L) (B + e) (W (sin L)) in 2 * e1 + u * (2 * (B + e1))
  | LSum L => e + wsum_tau u eta uw g (sin L) (B + e) (W (sin L))
  | LRoot D => INR D * e + g D * (INR D * (B + e))
  end.
Definition layer_safe (l : layer) (B e : R) : Prop :=
  match l with
  | LEin L => ein_rel u eta uw g (sin L) (B + e) (wlow Lam (sin L * sin L)) < 1
  | LLin L => linsum_rel u eta uw g (sin L) (B + e) (W (sin L)) < 1
  | LLin2 L | LSum L => wsum_rel u eta uw g (sin L) (B + e) (W (sin L)) < 1
  | LRoot _ => True
  end.
Lemma near_mag D S Rn v x B e d o r : near D S Rn v x B e -> (d < D)%nat -> (o < S)%nat -> (r < Rn)%nat -> Rabs (v d o r) <= B + e.
Proof. intros H Hd Ho Hr. destruct (H d o r Hd Ho Hr) as (_ & H1 & H2). apply Rabs_le_iff in H1. apply Rabs_le_iff in H2. apply Rabs_le_iff. lra. Qed.
Lemma abs_add a b x y : Rabs a <= x -> Rabs b <= y -> Rabs (a + b) <= x + y.
Proof. intros. eapply Rle_trans; [apply Rabs_triang|lra]. Qed.
Lemma abs_chain a b c x y : Rabs (a - b) <= x -> Rabs (b - c) <= y -> Rabs (a - c) <= x + y.
Proof. intros. replace (a - c) with ((a - b) + (b - c)) by ring. apply abs_add; auto. Qed.

(** A weighted sum of exponentials: the computed one against the exact one *)
Lemma node_err K lg (a b : nat -> R) y x B e tau : (0 < K)%nat ->
  (forall k, (k < K)%nat -> Rabs (a k - b k) <= e) -> (forall k, (k < K)%nat -> Rabs (b k) <= B) ->
  x = rsum K (fun k => rsoftmax K lg k * exp (b k)) ->
  Rabs (y - ln (rsum K (fun k => rsoftmax K lg k * exp (a k)))) <= tau ->
  0 < x /\ Rabs (ln x) <= B /\ Rabs (y - ln x) <= e + tau.
Proof.
  intros HK He HB Hx Hy. pose proof (fun k (_ : (k < K)%nat) => rsoftmax_pos K lg k HK) as Hw. split; [|split].
  - rewrite Hx. apply rsum_pos; auto. intros. apply Rmult_lt_0_compat; [auto|apply exp_pos].
  - rewrite Hx. apply lse_bound; auto. apply rsoftmax_sum; auto.
  - pose proof (lse_lip K (rsoftmax K lg) a b e HK Hw He) as L. rewrite <- Hx in L. rewrite Rplus_comm. eapply abs_chain; eauto.
Qed.
Lemma wsum_err K lg (a : nat -> R) (x : nat -> R) B e : (0 < K)%nat -> (forall k, (k < K)%nat -> Rabs (lg k) <= Lam) ->
  (forall k, (k < K)%nat -> 0 < x k /\ Rabs (ln (x k)) <= B /\ Rabs (a k - ln (x k)) <= e) ->
  wsum_rel u eta uw g K (B + e) (W K) < 1 -> let X := rsum K (fun k => rsoftmax K lg k * x k) in
  0 < X /\ Rabs (ln X) <= B /\ Rabs (fwsum A K lg a - ln X) <= e + wsum_tau u eta uw g K (B + e) (W K).
Proof.
  intros HK HL H Hr X. apply (node_err K lg a (fun k => ln (x k))); auto; try (intros; apply H; auto).
  - unfold X. apply rsum_ext. intros k Hk. rewrite exp_ln; auto. apply H; auto.
  - apply (fwsum_err A Lam u eta uw g HA Hu Heta Hg); auto; [apply wlow_pos; auto|intros; apply wlow_le; auto|]. intros i Hi. destruct (H i Hi) as (_ & H1 & H2).
    replace (a i) with (ln (x i) + (a i - ln (x i))) by ring. apply abs_add; auto.
Qed.

Lemma rsum_abs n (f : nat -> R) b : (forall i, (i < n)%nat -> Rabs (f i) <= b) -> Rabs (rsum n f) <= INR n * b.
Proof.
  intros Hf. apply Rle_trans with (rsum n (fun i => Rabs (f i))); [|rewrite <- rsum_const; apply rsum_le; auto].
  clear Hf. induction n; [rewrite !rsum_0, Rabs_R0; lra|]. rewrite !rsum_S. eapply Rle_trans; [apply Rabs_triang|lra].
Qed.
Lemma fsum_err n (f y : nat -> R) b e : (forall i, (i < n)%nat -> Rabs (y i) <= b) -> (forall i, (i < n)%nat -> Rabs (f i - y i) <= e) ->
  Rabs (fsum A n f - rsum n y) <= INR n * e + g n * (INR n * (b + e)).
Proof.
  intros Hb He. rewrite Rplus_comm. apply abs_chain with (rsum n f).
  - eapply Rle_trans; [apply (ac_sum _ _ _ _ _ _ HA)|]. apply Rmult_le_compat_l; auto. rewrite <- rsum_const. apply rsum_le. intros i Hi.
    replace (f i) with (y i + (f i - y i)) by ring. apply abs_add; auto.
  - replace (rsum n f - rsum n y) with (rsum n (fun i => f i - y i)); [apply rsum_abs; auto|].
    rewrite (rsum_ext n _ (fun i => f i + (-1) * y i)) by (intros; ring). rewrite rsum_plus, rsum_scal_l. ring.
Qed.
Lemma ln_rprod n (x : nat -> R) : (forall i, (i < n)%nat -> 0 < x i) -> 0 < rprod n x /\ ln (rprod n x) = rsum n (fun i => ln (x i)).
Proof.
  intros H. induction n as [|n IH]; [rewrite rprod_0, rsum_0, ln_1; split; lra|]. destruct IH as [I1 I2]; [auto|]. rewrite rprod_S, rsum_S.
  split; [apply Rmult_lt_0_compat; auto|]. rewrite ln_mult, I2; auto.
Qed.

Lemma layer_near Rn D S l v x B e : layer_ok Rn D S l -> layer_logits Lam l -> layer_safe l B e -> near D S Rn v x B e ->
  near (layer_dout l) (layer_sout S l) Rn (flayer A l v) (evals (layer_us 1 S l) x) (layer_B l B) (layer_e l B e).
Proof.
  destruct l as [L|L|L|L|D']; cbn [layer_ok layer_logits layer_safe layer_dout layer_sout layer_us layer_B layer_e evals fold_left]; intros Hok Hlg Hsafe H d o r Hd Ho Hr; unfold evals; cbn [fold_left flayer].
  - destruct Hok as [(Hs & _ & _ & _ & Ev & _) (ED & ES & ER)]. set (s := sin L) in *. assert (Hn: (0 < s * s)%nat) by nia.
    assert (Hd2: (2 * d + 1 < D)%nat). { unfold einsum_features_out in Hd. pose proof (Nat.div_mod (nf L) 2 ltac:(lia)). lia. }
    set (lg := fun k => lgR (logits L) [d; o; r; k / s; k mod s]%nat).
    assert (Kd: forall k, (k < s * s)%nat -> (k / s < s)%nat /\ (k mod s < s)%nat).
    { intros k Hk. split; [apply Nat.div_lt_upper_bound; [lia|exact Hk]|apply Nat.mod_upper_bound; lia]. }
    assert (HL: forall k, (k < s * s)%nat -> Rabs (lg k) <= Lam).
    { intros k Hk. destruct (Kd k Hk). apply Hlg. unfold einsum_weight_shape. cbn [inb]. repeat split; auto; lia. }
    assert (P0: forall i, (i < s)%nat -> 0 < x (2 * d)%nat i r /\ Rabs (ln (x (2 * d)%nat i r)) <= B /\ Rabs (v (2 * d)%nat i r - ln (x (2 * d)%nat i r)) <= e) by (intros i Hi; apply H; lia).
    assert (P1: forall i, (i < s)%nat -> 0 < x (2 * d + 1)%nat i r /\ Rabs (ln (x (2 * d + 1)%nat i r)) <= B /\ Rabs (v (2 * d + 1)%nat i r - ln (x (2 * d + 1)%nat i r)) <= e) by (intros i Hi; apply H; lia).
    apply (node_err (s * s) lg (fun k => v (2 * d)%nat (k / s)%nat r + v (2 * d + 1)%nat (k mod s)%nat r)
             (fun k => ln (x (2 * d)%nat (k / s)%nat r) + ln (x (2 * d + 1)%nat (k mod s)%nat r))); auto.
    + intros k Hk. destruct (Kd k Hk) as [K1 K2]. destruct (P0 _ K1) as (_ & _ & A1). destruct (P1 _ K2) as (_ & _ & A2).
      match goal with |- Rabs ?z <= _ => replace z with ((v (2 * d)%nat (k / s)%nat r - ln (x (2 * d)%nat (k / s)%nat r)) + (v (2 * d + 1)%nat (k mod s)%nat r - ln (x (2 * d + 1)%nat (k mod s)%nat r))) by ring end.
      eapply Rle_trans; [apply abs_add; eauto|lra].
    + intros k Hk. destruct (Kd k Hk) as [K1 K2]. destruct (P0 _ K1) as (_ & A1 & _). destruct (P1 _ K2) as (_ & A2 & _). eapply Rle_trans; [apply abs_add; eauto|lra].
    + unfold ueval, uprod. cbn [einsum_u uK uW ukids usel]. fold s. apply rsum_ext. intros k Hk. destruct (Kd k Hk) as [K1 K2]. destruct (P0 _ K1) as (A1 & _). destruct (P1 _ K2) as (A2 & _).
      unfold einsum_w. fold s. rewrite wsoft1 by auto. f_equal. cbn [lprod]. rewrite Nat.eqb_refl. replace (2 * d + 1 =? 2 * d)%nat with false by (symmetry; apply Nat.eqb_neq; lia).
      rewrite exp_plus, !exp_ln by auto. ring.
    + apply (feinsum_err A Lam u eta uw g HA Hu Heta Huw Hg); auto; [apply wlow_pos; auto|intros; apply wlow_le; auto| |].
      * intros i Hi. apply (near_mag D S Rn v x B e); auto; lia.
      * intros i Hi. apply (near_mag D S Rn v x B e); auto; lia.
  - destruct Hok as [(Hs & _ & _) (ED & ES & ER)]. set (s := sin L) in *.
    assert (Hd2: (2 * d < D)%nat). { unfold linsum_features_out, linsum_pad in Hd. rewrite div2_half in Hd. pose proof (Nat.div_mod (nf L + 1) 2 ltac:(lia)). pose proof (Nat.mod_upper_bound (nf L + 1) 2 ltac:(lia)). lia. }
    set (lg := fun k => lgR (logits L) [d; k; o; r]).
    assert (HL: forall k, (k < s)%nat -> Rabs (lg k) <= Lam).
    { intros k Hk. apply Hlg. unfold linsum_weight_shape. cbn [inb]. repeat split; auto; lia. }
    set (yl := fun i => v (2 * d)%nat i r). set (yr := fun i => at_pad (nf L) v (2 * d + 1) i r). set (xr := fun i => if (2 * d + 1 <? nf L)%nat then x (2 * d + 1)%nat i r else 1).
    assert (P0: forall i, (i < s)%nat -> 0 < x (2 * d)%nat i r /\ Rabs (ln (x (2 * d)%nat i r)) <= B /\ Rabs (yl i - ln (x (2 * d)%nat i r)) <= e) by (intros i Hi; apply H; lia).
    assert (P1: forall i, (i < s)%nat -> 0 < xr i /\ Rabs (ln (xr i)) <= B /\ Rabs (yr i - ln (xr i)) <= e).
    { intros i Hi. unfold xr, yr, at_pad. destruct (Nat.ltb_spec (2 * d + 1) (nf L)) as [Hlt|Hge]; [apply H; lia|]. rewrite ln_1, Rminus_0_r, Rabs_R0.
      destruct (P0 i Hi) as (_ & Z1 & Z2). pose proof (Rabs_pos (ln (x (2 * d)%nat i r))). pose proof (Rabs_pos (yl i - ln (x (2 * d)%nat i r))). repeat split; lra. }
    assert (Mag: forall a b, Rabs b <= B -> Rabs (a - b) <= e -> Rabs a <= B + e) by (intros a b Q1 Q2; replace a with (b + (a - b)) by ring; apply abs_add; auto).
    apply (node_err s lg (fun k => yl k + yr k) (fun k => ln (x (2 * d)%nat k r) + ln (xr k))); auto.
    + intros k Hk. destruct (P0 _ Hk) as (_ & _ & A1). destruct (P1 _ Hk) as (_ & _ & A2).
      replace (yl k + yr k - (ln (x (2 * d)%nat k r) + ln (xr k))) with ((yl k - ln (x (2 * d)%nat k r)) + (yr k - ln (xr k))) by ring. eapply Rle_trans; [apply abs_add; eauto|lra].
    + intros k Hk. destruct (P0 _ Hk) as (_ & A1 & _). destruct (P1 _ Hk) as (_ & A2 & _). eapply Rle_trans; [apply abs_add; eauto|lra].
    + unfold ueval, uprod. cbn [linsum_u uK uW ukids usel]. fold s. apply rsum_ext. intros k Hk. destruct (P0 _ Hk) as (A1 & _). destruct (P1 _ Hk) as (A2 & _).
      unfold linsum_w. fold s. rewrite wsoft1 by auto. f_equal. rewrite exp_plus, !exp_ln by auto. unfold pair_kids, xr. destruct (2 * d + 1 <? nf L)%nat; cbn [lprod]; ring.
    + apply (flinsum_err A Lam u eta uw g HA Hu Heta Hg); auto; [apply wlow_pos; auto|intros; apply wlow_le; auto| |].
      * intros i Hi. destruct (P0 i Hi) as (_ & Q1 & Q2). eapply Mag; eauto.
      * intros i Hi. destruct (P1 i Hi) as (_ & Q1 & Q2). eapply Mag; eauto.
  - destruct Hok as [(Hs & _ & _) (Ev & ED & ES & ER)]. set (s := sin L) in *.
    assert (Hd2: (2 * d + 1 < D)%nat). { unfold linsum_features_out, linsum_pad in Hd. rewrite Ev, Nat.add_0_r in Hd. pose proof (Nat.div_mod (nf L) 2 ltac:(lia)). lia. }
    set (y := fun d => fwsum A s (fun k => lgR (logits L) [d; k; o; r]) (fun i => v d i r)). set (X := ueval (sum_u L 1) x). set (e1 := e + wsum_tau u eta uw g s (B + e) (W s)).
    assert (P: forall d', (d' < D)%nat -> 0 < X d' o r /\ Rabs (ln (X d' o r)) <= B /\ Rabs (y d' - ln (X d' o r)) <= e1).
    { intros d' Hd'. unfold X, ueval, uprod. cbn [sum_u uK uW ukids usel lprod]. fold s.
      rewrite (rsum_ext s _ (fun k => rsoftmax s (fun k => lgR (logits L) [d'; k; o; r]) k * x d' k r)).
      - apply wsum_err; auto; [|intros k Hk; apply H; lia]. intros k Hk. apply Hlg. unfold linsum2_weight_shape. cbn [inb]. repeat split; auto; lia.
      - intros k Hk. unfold linsum_w. fold s. rewrite wsoft1 by auto. unfold lgR. ring. }
    assert (E: ueval (pairprod_u (nf L) (sout L)) X d o r = X (2 * d)%nat o r * X (2 * d + 1)%nat o r).
    { unfold ueval, uprod. cbn [pairprod_u uK uW ukids usel]. rewrite rsum_S, rsum_0. unfold pair_kids. replace (2 * d + 1 <? nf L)%nat with true by (symmetry; apply Nat.ltb_lt; lia). cbn [lprod]. ring. }
    rewrite E. destruct (P (2 * d)%nat ltac:(lia)) as (A1 & A2 & A3). destruct (P (2 * d + 1)%nat ltac:(lia)) as (B1 & B2 & B3). cbv zeta. fold e1. fold y.
    split; [apply Rmult_lt_0_compat; auto|]. rewrite ln_mult by auto. split; [eapply Rle_trans; [apply abs_add; eauto|lra]|].
    eapply Rle_trans; [eapply (fadd_err A Lam u eta uw g HA Hu B B _ _ _ _ e1 e1); auto|]. lra.
  - destruct Hok as [(Hs & _) (ED & ES & ER)]. set (s := sin L) in *. unfold ueval, uprod. cbn [sum_u uK uW ukids usel lprod]. fold s.
    rewrite (rsum_ext s _ (fun k => rsoftmax s (fun k => lgR (logits L) [d; k; o; r]) k * x d k r)).
    + apply wsum_err; auto; [|intros k Hk; apply H; lia]. intros k Hk. apply Hlg. unfold sum_weight_shape. cbn [inb]. repeat split; auto; lia.
    + intros k Hk. unfold linsum_w. fold s. rewrite wsoft1 by auto. unfold lgR. ring.
  - subst D'. replace d with 0%nat in * by lia.
    assert (E: ueval (rootprod_u D S) x 0%nat o r = rprod D (fun d' => x d' o r)).
    { unfold ueval, uprod. cbn [rootprod_u uK uW ukids usel]. rewrite rsum_S, rsum_0. unfold rprod. ring. }
    rewrite E. assert (Pp: forall d', (d' < D)%nat -> 0 < x d' o r) by (intros; apply H; auto). clear E.
    destruct (ln_rprod D (fun d' => x d' o r) Pp) as [T1 T2]. split; auto. rewrite T2.
    split; [apply rsum_abs; intros; apply H; auto|]. apply (fsum_err D); intros; apply H; auto.
Qed.

Fixpoint layers_B (ls : list layer) (B : R) : R := match ls with [] => B | l :: ls' => layers_B ls' (layer_B l B) end.
Fixpoint layers_e (ls : list layer) (B e : R) : R := match ls with [] => e | l :: ls' => layers_e ls' (layer_B l B) (layer_e l B e) end.
Fixpoint layers_safe (ls : list layer) (B e : R) : Prop :=
  match ls with [] => True | l :: ls' => layer_safe l B e /\ layers_safe ls' (layer_B l B) (layer_e l B e) end.
Lemma layers_near Rn ls : forall D S D' S' v x B e, layers_ok Rn ls D S D' S' -> Forall (layer_logits Lam) ls -> layers_safe ls B e -> near D S Rn v x B e ->
  near D' S' Rn (flayers A ls v) (evals (layers_us 1 S ls) x) (layers_B ls B) (layers_e ls B e).
Proof.
  induction ls as [|l ls IH]; intros D S D' S' v x B e Hok Hlg Hsafe H.
  - destruct Hok as [<- <-]. exact H.
  - destruct Hok as [H1 H2]. destruct Hsafe as [S1 S2]. inversion Hlg; subst. cbn [layers_us]. rewrite evals_app. cbn [layers_B layers_e].
    change (flayers A (l :: ls) v) with (flayers A ls (flayer A l v)). eapply IH; eauto. apply layer_near with (D := D); auto.
Qed.

(** * The leaf layer *)
Definition leaf_B (C F : nat) (Bq : R) : R := INR F * (INR C * Bq).
Definition leaf_e (C F : nat) (Bq delta : R) : R :=
  let e1 := INR C * delta + g C * (INR C * (Bq + delta)) in INR F * e1 + g F * (INR F * (INR C * Bq + e1)).
Lemma leaf_near C F grp D L Rn (qh : nat -> nat -> nat -> nat -> R) (q : leaves) Bq delta : (0 < C)%nat -> (0 < F)%nat ->
  (forall c f l r, (c < C)%nat -> (f < F)%nat -> (l < L)%nat -> (r < Rn)%nat -> 0 < q c f l r /\ Rabs (ln (q c f l r)) <= Bq /\ Rabs (qh c f l r - ln (q c f l r)) <= delta) ->
  near D L Rn (fleaf A C F grp qh) (fun d l r => rprod F (fun f => if (grp r f =? d)%nat then rprod C (fun c => q c f l r) else 1)) (leaf_B C F Bq) (leaf_e C F Bq delta).
Proof.
  intros HC HF H d l r Hd Hl Hr. unfold fleaf, leaf_B, leaf_e. set (e1 := INR C * delta + g C * (INR C * (Bq + delta))).
  set (P := fun f => if (grp r f =? d)%nat then rprod C (fun c => q c f l r) else 1).
  assert (HP: forall f, (f < F)%nat -> 0 < P f /\ Rabs (ln (P f)) <= INR C * Bq /\ Rabs ((if (grp r f =? d)%nat then fsum A C (fun c => qh c f l r) else 0) - ln (P f)) <= e1).
  { intros f Hf. destruct (ln_rprod C (fun c => q c f l r)) as [T1 T2]; [intros; apply H; auto|].
    assert (U1: Rabs (rsum C (fun c => ln (q c f l r))) <= INR C * Bq) by (apply rsum_abs; intros; apply H; auto).
    assert (U2: Rabs (fsum A C (fun c => qh c f l r) - rsum C (fun c => ln (q c f l r))) <= e1) by (apply fsum_err; intros; apply H; auto).
    unfold P. destruct (grp r f =? d)%nat; [rewrite T2; auto|]. rewrite ln_1, Rminus_0_r, Rabs_R0.
    split; [lra|]. split; [eapply Rle_trans; [apply Rabs_pos|exact U1]|eapply Rle_trans; [apply Rabs_pos|exact U2]]. }
  destruct (ln_rprod F P) as [T1 T2]; [intros; apply HP; auto|]. split; auto. rewrite T2.
  split; [apply rsum_abs; intros; apply HP; auto|]. apply fsum_err; intros; apply HP; auto.
Qed.

(** * The network *)
Definition einet_logits {V} (E : einet V) : Prop :=
  Forall (layer_logits Lam) (e_layers E) /\ match e_mixing E with Some m => logits_in Lam (logits m) (mixing_weight_shape m) | None => True end.
Definition net_B {V} (E : einet V) (Bq : R) : R := layers_B (e_layers E) (leaf_B (e_C E) (e_F E) Bq).
Definition pre_e {V} (E : einet V) (Bq delta : R) : R := layers_e (e_layers E) (leaf_B (e_C E) (e_F E) Bq) (leaf_e (e_C E) (e_F E) Bq delta).
Definition net_e {V} (E : einet V) (Bq delta : R) : R :=
  let e := pre_e E Bq delta in if (1 <? e_R E)%nat then e + wsum_tau u eta uw g (e_R E) (net_B E Bq + e) (W (e_R E)) else e.
Definition net_safe {V} (E : einet V) (Bq delta : R) : Prop :=
  layers_safe (e_layers E) (leaf_B (e_C E) (e_F E) Bq) (leaf_e (e_C E) (e_F E) Bq delta) /\
  ((1 < e_R E)%nat -> wsum_rel u eta uw g (e_R E) (net_B E Bq + pre_e E Bq delta) (W (e_R E)) < 1).
Theorem fforward_err {V} (E : einet V) qh (q : leaves) Bq delta k : einet_ok E -> einet_logits E -> (k < e_K E)%nat ->
  (forall c f l r, (c < e_C E)%nat -> (f < e_F E)%nat -> (l < e_L E)%nat -> (r < e_R E)%nat -> 0 < q c f l r /\ Rabs (ln (q c f l r)) <= Bq /\ Rabs (qh c f l r - ln (q c f l r)) <= delta) ->
  net_safe E Bq delta ->
  Rabs (fforward A E qh k - ln (neteval (fnet E) q k)) <= net_e E Bq delta.
Proof.
  intros HE [HL Hm] Hk Hq [S1 S2]. pose proof (leaf_near (e_C E) (e_F E) (fgrp E) (leaf_out E) (e_L E) (e_R E) qh q Bq delta (eo_C E HE) (eo_F E HE) Hq) as N0.
  pose proof (layers_near _ _ _ _ _ _ _ _ _ _ (eo_layers E HE) HL S1 N0) as N1. fold (net_B E Bq) in N1. fold (pre_e E Bq delta) in N1.
  set (vh := flayers A _ _) in N1. unfold fforward. fold vh. unfold neteval. cbn [fnet net_with nR nmix nls].
  change (leafval _ q) with (fun d l r => rprod (e_F E) (fun f => if (fgrp E r f =? d)%nat then rprod (e_C E) (fun c => q c f l r) else 1)).
  set (x := evals _ _) in *. pose proof (eo_R E HE) as HR. unfold net_e. cbv zeta. destruct (Nat.ltb_spec 1 (e_R E)) as [H1|H1].
  - destruct (eo_mix E HE H1) as (m & Em & (Hs & Hf & _) & Es & Eo). unfold froot. rewrite Em. replace (1 <? e_R E)%nat with true by (symmetry; apply Nat.ltb_lt; auto).
    rewrite Em in Hm. rewrite Es.
    rewrite (rsum_ext (e_R E) _ (fun r => rsoftmax (e_R E) (fun k0 => lgR (logits m) [0; k; k0]%nat) r * x 0%nat k r)).
    + apply wsum_err; [exact HR| |intros r Hr; apply N1; auto; lia|apply S2; auto]. intros r Hr. apply Hm. unfold mixing_weight_shape. rewrite Hf, Eo, Es. cbn [inb]. repeat split; auto; lia.
    + intros r Hr. f_equal. unfold emix. rewrite Em. replace (1 <? e_R E)%nat with true by (symmetry; apply Nat.ltb_lt; auto). unfold mixing_w. rewrite Es, wsoft1 by auto. reflexivity.
  - assert (ER: e_R E = 1%nat) by lia. unfold froot. rewrite ER. cbn [Nat.ltb Nat.leb]. rewrite rsum_S, rsum_0.
    assert (Z: Rabs (vh 0%nat k 0%nat - ln (x 0%nat k 0%nat)) <= pre_e E Bq delta) by (apply N1; auto; lia).
    replace (emix E 1 k 0) with 1 by (unfold emix; rewrite ER; destruct (e_mixing E); reflexivity). rewrite Rplus_0_l, Rmult_1_l. destruct (e_mixing E); exact Z.
Qed.
End Acc.
