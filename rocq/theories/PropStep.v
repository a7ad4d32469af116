(** C81: training steps. *)
From Coq Require Import List Arith Lia Bool ZArith Reals Lra FunctionalExtensionality.
Import ListNotations.
From Verif Require Import Base RSum Num Tensor Prob Layers Circuit Net RefFwd Leaf Perm RefLeaf TypeChecks Einet RefNet RefEinet RefEinetS Build RefBuild
  Spec RefPost RefSpec RefPack Ex PropForward RefPerturb RefAlike RefGrad PropPerturb Train RefTrain PropTrain PropGrad Save Step RefStep.
Local Open Scope R_scope.

(** * Adam *)
Record hyper_ok (h : hyper) : Prop := { ho_b1 : 0 <= hy_b1 h < 1; ho_b2 : hy_b2 h < 1; ho_less : hy_b1 h * hy_b1 h < hy_b2 h; ho_eps : 0 < hy_eps h }.
(** The furthest that one step moves a parameter, in learning rates *)
Definition reach (h : hyper) : R := sqrt (hy_b2 h / ((1 - hy_b2 h) * (hy_b2 h - hy_b1 h * hy_b1 h))).
(** The moments after the gradients [gs] *)
Definition history (h : hyper) (gs : list R) : moments := fold_left (adam_moments h) gs fresh.

Section Adam.
Variable (h : hyper).
Hypothesis (Hh : hyper_ok h).
Notation b1 := (hy_b1 h). Notation b2 := (hy_b2 h).
Lemma b2_pos : 0 < b2 < 1.
Proof. destruct Hh as [H1 H2 H3 H4]. split; auto. eapply Rle_lt_trans; [|exact H3]. apply Rle_0_sqr. Qed.
Lemma pow_lt_1 b n : 0 <= b < 1 -> (0 < n)%nat -> 0 <= b ^ n <= b.
Proof.
  intros Hb Hn. destruct n as [|n]; [lia|]. assert (P: 0 <= b ^ n <= 1).
  { clear Hn. induction n as [|n IH]; cbn [pow]; [lra|nra]. }
  cbn [pow]. nra.
Qed.
Definition mom_inv (s : moments) : Prop := 0 <= mo_v s /\ mo_m s * mo_m s * ((1 - b2) * (b2 - b1 * b1)) <= (1 - b1) * (1 - b1) * b2 * mo_v s.
Lemma fresh_inv : mom_inv fresh.
Proof. unfold mom_inv. cbn. lra. Qed.
Lemma moments_inv s g : mom_inv s -> mom_inv (adam_moments h s g).
Proof.
  intros (H1 & H2). pose proof b2_pos as B. destruct Hh as [Hb1 _ Hl _]. unfold mom_inv, adam_moments. cbn [mo_m mo_v].
  set (m := mo_m s) in *. set (v := mo_v s) in *. split; [nra|]. set (D := b2 - b1 * b1) in *. assert (PD: 0 < D) by (unfold D; lra).
  set (c := 1 - b1). assert (Pc: 0 < c) by (unfold c; lra). set (e := 1 - b2). assert (Pe: 0 < e) by (unfold e; lra). fold c e in H2.
  (* (b1 m + c g)^2 D <= b2 m^2 D + c^2 g^2 b2 *)
  assert (K: (b1 * m + c * g) * (b1 * m + c * g) * D <= b2 * (m * m) * D + c * c * (g * g) * b2).
  { assert (Q: 0 <= (D * m - b1 * (c * g)) * (D * m - b1 * (c * g))) by apply Rle_0_sqr.
    replace (b2 * (m * m) * D + c * c * (g * g) * b2) with ((b1 * m + c * g) * (b1 * m + c * g) * D + (D * m - b1 * (c * g)) * (D * m - b1 * (c * g))) by (unfold D; ring). lra. }
  assert (K2: e * ((b1 * m + c * g) * (b1 * m + c * g) * D) <= e * (b2 * (m * m) * D + c * c * (g * g) * b2)) by (apply Rmult_le_compat_l; lra).
  assert (K3: b2 * (m * m * (e * D)) <= b2 * (c * c * b2 * v)) by (apply Rmult_le_compat_l; lra). lra.
Qed.
Lemma history_inv gs : mom_inv (history h gs) /\ mo_t (history h gs) = List.length gs.
Proof.
  unfold history. assert (X: forall s, mom_inv s -> mom_inv (fold_left (adam_moments h) gs s) /\ mo_t (fold_left (adam_moments h) gs s) = (mo_t s + List.length gs)%nat).
  { induction gs as [|g gs IH]; intros s Hs; cbn [fold_left List.length]; [split; auto; lia|]. destruct (IH _ (moments_inv s g Hs)) as (H1 & H2). split; auto. rewrite H2. cbn. lia. }
  apply (X fresh fresh_inv).
Qed.
Lemma change_le lr s : 0 <= lr -> mom_inv s -> (0 < mo_t s)%nat -> Rabs (adam_change h lr s) <= lr * reach h.
Proof.
  intros Hlr (H1 & H2) Ht. pose proof b2_pos as B. destruct Hh as [Hb1 _ Hl He]. unfold adam_change.
  pose proof (pow_lt_1 b1 (mo_t s) Hb1 Ht) as P1. pose proof (pow_lt_1 b2 (mo_t s) ltac:(lra) Ht) as P2.
  set (m := mo_m s) in *. set (v := mo_v s) in *. set (q1 := 1 - b1 ^ mo_t s) in *. set (q2 := 1 - b2 ^ mo_t s) in *.
  assert (Q1: 1 - b1 <= q1 <= 1) by (unfold q1; lra). assert (Q2: 0 < q2 <= 1) by (unfold q2; lra).
  assert (PD: 0 < b2 - b1 * b1) by lra. assert (PE: 0 < 1 - b2) by lra.
  assert (RP: 0 < b2 / ((1 - b2) * (b2 - b1 * b1))) by (apply Rdiv_lt_0_compat; [lra|apply Rmult_lt_0_compat; lra]).
  assert (V: 0 <= v / q2) by (apply Rmult_le_pos; [auto|left; apply Rinv_0_lt_compat; lra]). pose proof (sqrt_pos (v / q2)) as SV.
  assert (KEY: Rabs (m / q1) <= reach h * sqrt (v / q2)).
  { unfold reach. rewrite <- sqrt_mult by lra. rewrite <- sqrt_Rsqr_abs. apply sqrt_le_1_alt. unfold Rsqr.
    apply Rle_trans with (b2 / ((1 - b2) * (b2 - b1 * b1)) * v).
    - apply Rmult_le_reg_r with (((1 - b2) * (b2 - b1 * b1)) * (q1 * q1)); [repeat apply Rmult_lt_0_compat; lra|].
      replace (m / q1 * (m / q1) * ((1 - b2) * (b2 - b1 * b1) * (q1 * q1))) with (m * m * ((1 - b2) * (b2 - b1 * b1))) by (field; lra).
      replace (b2 / ((1 - b2) * (b2 - b1 * b1)) * v * ((1 - b2) * (b2 - b1 * b1) * (q1 * q1))) with (q1 * q1 * (b2 * v)) by (field; lra).
      eapply Rle_trans; [exact H2|]. replace ((1 - b1) * (1 - b1) * b2 * v) with ((1 - b1) * (1 - b1) * (b2 * v)) by ring.
      apply Rmult_le_compat_r; [apply Rmult_le_pos; lra|]. apply Rmult_le_compat; lra.
    - apply Rmult_le_compat_l; [lra|]. apply Rmult_le_reg_r with q2; [lra|]. replace (v / q2 * q2) with v by (field; lra). nra. }
  set (sv := sqrt (v / q2)) in *. set (mh := m / q1) in *.
  assert (PS: 0 < sv + hy_eps h) by lra. unfold Rdiv. rewrite !Rabs_mult, Rabs_Ropp, (Rabs_pos_eq lr) by auto. rewrite (Rabs_pos_eq (/ (sv + hy_eps h))) by (left; apply Rinv_0_lt_compat; lra).
  rewrite Rmult_assoc. apply Rmult_le_compat_l; auto. apply Rmult_le_reg_r with (sv + hy_eps h); auto. rewrite Rmult_assoc, Rinv_l, Rmult_1_r by lra.
  eapply Rle_trans; [exact KEY|]. assert (0 <= reach h) by apply sqrt_pos. nra.
Qed.
Lemma first_change lr g : adam_change h lr (adam_moments h fresh g) = lr * (- g / (Rabs g + hy_eps h)).
Proof.
  pose proof b2_pos as B. destruct Hh as [Hb1 _ Hl He]. unfold adam_change, adam_moments, fresh. cbn [mo_m mo_v mo_t pow].
  replace ((b1 * 0 + (1 - b1) * g) / (1 - b1 * 1)) with g by (field; lra).
  replace ((b2 * 0 + (1 - b2) * (g * g)) / (1 - b2 * 1)) with (Rsqr g) by (unfold Rsqr; field; lra). rewrite sqrt_Rsqr_abs. unfold Rdiv. ring.
Qed.
End Adam.

(** One Adam step moves a parameter by at most [reach] learning rates, whatever the gradients were; the first step moves it against
    its gradient by less than one learning rate. *)
Theorem C81_adam : forall h, hyper_ok h -> forall lr gs g, 0 <= lr ->
  Rabs (adam_change h lr (history h (gs ++ [g]))) <= lr * reach h /\
  adam_change h lr (history h [g]) = lr * (- g / (Rabs g + hy_eps h)) /\
  (0 < lr -> Rabs (adam_change h lr (history h [g])) < lr).
Proof.
  intros h Hh lr gs g Hlr. destruct (history_inv h Hh (gs ++ [g])) as (H1 & H2). rewrite app_length in H2. cbn in H2. split; [apply change_le; auto; lia|].
  change (history h [g]) with (adam_moments h fresh g). rewrite first_change by auto. split; auto. intros Hp. pose proof (ho_eps h Hh) as He. pose proof (Rabs_pos g) as Pg.
  unfold Rdiv. rewrite !Rabs_mult, Rabs_Ropp, (Rabs_pos_eq lr) by lra. rewrite (Rabs_pos_eq (/ _)) by (left; apply Rinv_0_lt_compat; lra).
  rewrite <- (Rmult_1_r lr) at 2. apply Rmult_lt_compat_l; auto. apply Rmult_lt_reg_r with (Rabs g + hy_eps h); [lra|]. rewrite Rmult_assoc, Rinv_l by lra. lra.
Qed.
Print Assumptions C81_adam.
Example C81_defaults : hyper_ok adam_defaults /\ reach adam_defaults <= 73.
Proof.
  assert (P: 0 < 10 ^ 8) by (apply pow_lt; lra). split.
  - split; cbn [adam_defaults hy_b1 hy_b2 hy_eps]; lra.
  - unfold reach. cbn [adam_defaults hy_b1 hy_b2]. rewrite <- (sqrt_square 73) by lra. apply sqrt_le_1_alt. lra.
Qed.

(** * Runs *)
Section Runs.
Context {V : Type}.
Lemma within_trans d1 d2 (a b c : oracle V) : within d1 a b -> within d2 b c -> within (d1 + d2) a c.
Proof.
  assert (T: forall f h k, logits_within d1 f h -> logits_within d2 h k -> logits_within (d1 + d2) f k).
  { intros f h k H1 H2 i. specialize (H1 i). specialize (H2 i). replace (toR (f i) - toR (k i)) with ((toR (f i) - toR (h i)) + (toR (h i) - toR (k i))) by ring.
    eapply Rle_trans; [apply Rabs_triang|lra]. }
  intros [A1 A2 A3 A4 A5] [B1 B2 B3 B4 B5]. split; eauto; try congruence.
Qed.
Lemma within_refl (a : oracle V) : within 0 a a.
Proof. assert (T: forall f, logits_within 0 f f) by (intros f i; unfold Rminus; rewrite Rplus_opp_r, Rabs_R0; lra). split; auto. Qed.
Lemma moved_within g (o : oracle V) d dm lf delta : oracle_ok g o -> (forall j idx, Rabs (d j idx) <= delta) -> (forall idx, Rabs (dm idx) <= delta) -> within delta o (moved g o d dm lf).
Proof.
  intros O H1 H2. assert (T: forall f e, (forall i, isfin (f i) = true) -> (forall i, Rabs (e i) <= delta) -> logits_within delta f (fun i => nadd (f i) (Fin (e i)))).
  { intros f e Hf He i. specialize (Hf i). specialize (He i). destruct (f i) as [a| | | ]; try discriminate Hf. cbn [nadd toR]. replace (a - (a + e i)) with (- e i) by ring. rewrite Rabs_Ropp. exact He. }
  split; cbn [moved o_sizes o_perm o_logits o_top o_mix]; auto; try (intros i); apply T; auto; try apply O; intros; apply O.
Qed.
(** The learning rates of a run and its leaves *)
Definition total_rate (steps : list (batch_step V)) : R := fold_right (fun s a => bs_lr s + a) 0 steps.
Definition last_leaf (lf : bleaf V) (steps : list (batch_step V)) : bleaf V := fold_left (fun _ s => bs_leaf s) steps lf.
Definition step_ok (lf : bleaf V) (s : batch_step V) : Prop := 0 <= bs_lr s /\ same_size lf (bs_leaf s).
Definition state_inv (h : hyper) (T : training V) : Prop := (forall j idx, mom_inv h (tr_mom T j idx)) /\ forall idx, mom_inv h (tr_mix T idx).
Lemma run_inv h g (Hh : hyper_ok h) : forall steps (T : training V) o lf0, accepted g o (tr_net T) -> state_inv h T -> same_size lf0 (leafE (tr_net T)) -> Forall (step_ok lf0) steps ->
  let T' := fold_left (fun T s => adam_net h (bs_lr s) T (bs_G s) (bs_Gm s) (bs_leaf s)) steps T in
  exists o', accepted g o' (tr_net T') /\ within (total_rate steps * reach h) o o' /\ leafE (tr_net T') = last_leaf (leafE (tr_net T)) steps /\ e_root (tr_net T') = e_root (tr_net T).
Proof.
  induction steps as [|s steps IH]; intros T o lf0 A HI HS HF; cbn [fold_left total_rate fold_right last_leaf].
  - exists o. rewrite Rmult_0_l. split; auto. split; [apply within_refl|auto].
  - inversion HF as [|? ? (Hlr & Hsz) HF']. subst. set (T1 := adam_net h (bs_lr s) T (bs_G s) (bs_Gm s) (bs_leaf s)).
    assert (HSS: same_size (leafE (tr_net T)) (bs_leaf s)) by (destruct HS as (_ & S1 & S2 & S3 & S4); unfold same_size in *; rewrite S1, S2, S3, S4; exact Hsz).
    destruct HI as (HI1 & HI2).
    assert (A1: accepted g (moved g o (fun j idx => adam_change h (bs_lr s) (tr_mom T1 j idx)) (fun idx => adam_change h (bs_lr s) (tr_mix T1 idx)) (bs_leaf s)) (tr_net T1)) by (apply moved_ok; auto).
    destruct (IH T1 _ lf0 A1) as (o' & A' & W' & L' & R'); auto.
    + split; intros; apply moments_inv; auto.
    + unfold T1, adam_net. cbn [tr_net]. rewrite step_leaf. exact Hsz.
    + exists o'. split; [exact A'|]. split; [|split].
      * rewrite Rmult_plus_distr_r. eapply within_trans; [|exact W']. apply moved_within; [apply (ac_oracle _ _ _ A)| |]; intros; apply change_le; auto; try apply moments_inv; auto; cbn; lia.
      * rewrite L'. unfold T1, adam_net. cbn [tr_net]. rewrite step_leaf. reflexivity.
      * rewrite R'. reflexivity.
Qed.
End Runs.

(** Training with Adam on any gradients: the model stays one that the constructor accepts for the same configuration, with the same
    structure, and its logits stay within the sum of the learning rates times [reach]; the class weights used by sample() never move. *)
Theorem C81_run : forall V h g o (E : einet V) steps, hyper_ok h -> accepted g o E -> Forall (step_ok (leafE E)) steps ->
  let E' := tr_net (train_run h E steps) in
  exists o', accepted g o' E' /\ within (total_rate steps * reach h) o o' /\ leafE E' = last_leaf (leafE E) steps /\ e_root E' = e_root E.
Proof.
  intros V h g o E steps Hh A HF. apply (run_inv h g Hh steps (tr_start E) o (leafE E)); auto.
  - split; intros; apply fresh_inv.
  - destruct (leaf_sizes g o E A) as (H & _). repeat split; auto; apply H.
Qed.
Print Assumptions C81_run.
(** Log-likelihoods after a run *)
Theorem C81_drift : forall V h g o (E : einet V) steps eps N x ms, hyper_ok h -> accepted g o E -> Forall (step_ok (leafE E)) steps ->
  leaves_within eps (leafE E) (last_leaf (leafE E) steps) -> evidence E N x ms ->
  exists y y', forward E x ms = Ok y /\ forward (tr_net (train_run h E steps)) x ms = Ok y' /\ forall n k, (n < N)%nat -> (k < e_K E)%nat ->
    isfin (get y [n; k]) = true /\ isfin (get y' [n; k]) = true /\
    Rabs (toR (get y [n; k]) - toR (get y' [n; k])) <= 2 * (total_rate steps * reach h) * INR (nodes g) + eps * count_observed E x ms n.
Proof.
  intros V h g o E steps eps N x ms Hh A HF HL He. destruct (C81_run V h g o E steps Hh A HF) as (o' & A' & W & L & _).
  apply (C71_loglikelihood V g o o' E _ _ eps N x ms A A' W); auto. rewrite L. exact HL.
Qed.
Print Assumptions C81_drift.

(** * Gradients of the losses *)
(** The losses that the programs call backward() on: main.py:75-76 without labels, models_pl.py:182-199, main.py:72-73 with labels,
    models_pl.py:279-298 *)
Inductive objective : Type := Generative | Lightning | Labels | Discriminative.
Definition objective_value {V} (ob : objective) (E : einet V) (x : tensor (option V)) (labels : tensor nat) : res num :=
  match ob with
  | Generative => train_loss E false x labels
  | Lightning => negative_log_likelihood E x RMean
  | Labels => train_loss E true x labels
  | Discriminative => r <- cross_entropy_and_accuracy E x labels ;; Ok (fst r)
  end.
Definition objective_ok (ob : objective) (K N : nat) (labels : tensor nat) : Prop :=
  match ob with Generative | Lightning => True | Labels | Discriminative => (1 < K)%nat /\ labelled K N labels end.
Definition objective_at {V} ob (E : einet V) x labels : R := loss_value (objective_value ob E x labels).
(** The derivative in the direction [dl], [dm], [dp] for the partial derivatives [G] (logits of the layers), [Gm] (of the mixing layer)
    and [Gl n] (log-probabilities of the leaves at the values of row [n]) *)
Definition leaf_inner {V} (E : einet V) (N : nat) (x : tensor (option V)) (Gl : nat -> nat -> nat -> nat -> nat -> R) (dp : nat -> nat -> nat -> nat -> V -> R) : R :=
  rsum N (fun n => rsum (e_F E) (fun f => rsum (e_C E) (fun c => match observed x None n c f with
    | Some v => rsum (e_L E) (fun l => rsum (e_R E) (fun r => Gl n c f l r * dp c f l r v)) | None => 0 end))).
Definition inner {V} (E : einet V) (N : nat) (x : tensor (option V)) (G : nat -> list nat -> R) (Gm : list nat -> R) (Gl : nat -> nat -> nat -> nat -> nat -> R)
    (dl : nat -> list nat -> R) (dm : list nat -> R) (dp : nat -> nat -> nat -> nat -> V -> R) : R :=
  rsum (List.length (e_layers E)) (fun j => isum (shape (logits_at E j)) (fun idx => G j idx * dl j idx)) +
  isum (shape (mix_logits E)) (fun idx => Gm idx * dm idx) + leaf_inner E N x Gl dp.
Definition is_gradient {V} (g : config) (ob : objective) (E : einet V) (N : nat) (x : tensor (option V)) (labels : tensor nat)
    (G : nat -> list nat -> R) (Gm : list nat -> R) (Gl : nat -> nat -> nat -> nat -> nat -> R) : Prop :=
  forall o E' t0 dl dm dp, curve g o E' t0 dl dm dp -> E' t0 = E -> derivable_pt_lim (fun t => objective_at ob (E' t) x labels) t0 (inner E N x G Gm Gl dl dm dp).

(** What class [k] contributes at row [n] *)
Definition weight {V} (ob : objective) (E : einet V) (x : tensor (option V)) (labels : tensor nat) (n k : nat) : R :=
  let hit := if (k =? get labels [n])%nat then 1 else 0 in
  match ob with Generative => post E x n k | Lightning => / INR (e_K E) | Labels => hit | Discriminative => hit - post E x n k end.

Section Linear.
Context (N K : nat) (c : nat -> nat -> R).
Definition mix2 (a : nat -> nat -> R) : R := rsum N (fun n => rsum K (fun k => c n k * a n k)).
Lemma mix2_ext a b : (forall n k, (n < N)%nat -> (k < K)%nat -> a n k = b n k) -> mix2 a = mix2 b.
Proof. intros H. apply rsum_ext. intros n Hn. apply rsum_ext. intros k Hk. rewrite H; auto. Qed.
Lemma mix2_plus a b : mix2 (fun n k => a n k + b n k) = mix2 a + mix2 b.
Proof. unfold mix2. rewrite <- rsum_plus. apply rsum_ext. intros n _. rewrite <- rsum_plus. apply rsum_ext. intros; ring. Qed.
Lemma mix2_scal a z : mix2 (fun n k => a n k * z) = mix2 a * z.
Proof. unfold mix2. rewrite <- rsum_scal_r. apply rsum_ext. intros n _. rewrite <- rsum_scal_r. apply rsum_ext. intros; ring. Qed.
Lemma mix2_rsum m a : mix2 (fun n k => rsum m (fun i => a i n k)) = rsum m (fun i => mix2 (a i)).
Proof.
  unfold mix2. rewrite (rsum_swap m N). apply rsum_ext. intros n _. rewrite (rsum_swap m K). apply rsum_ext. intros k _. rewrite rsum_scal_l. reflexivity.
Qed.
Lemma mix2_isum s : forall a, mix2 (fun n k => isum s (fun idx => a idx n k)) = isum s (fun idx => mix2 (a idx)).
Proof.
  induction s as [|m s IH]; intros a; cbn [isum]; [reflexivity|]. rewrite mix2_rsum. apply rsum_ext. intros i _. apply (IH (fun idx => a (i :: idx))).
Qed.
End Linear.
Section Gradient.
Context {V : Type} (E : einet V) (N : nat) (x : tensor (option V)) (w : nat -> nat -> R).
Let c n k := - w n k / INR N.
Lemma mean_mix2 (a : nat -> nat -> R) : - mean N (fun n => rsum (e_K E) (fun k => w n k * a n k)) = mix2 N (e_K E) c a.
Proof.
  unfold mean, mix2, c, Rdiv. rewrite <- rsum_scal_r, <- (Rmult_1_l (rsum N _)), <- Ropp_mult_distr_l_reverse, <- rsum_scal_l. apply rsum_ext. intros n _.
  rewrite <- rsum_scal_r, <- rsum_scal_l. apply rsum_ext. intros; ring.
Qed.
Definition wG (j : nat) (idx : list nat) : R := mix2 N (e_K E) c (fun n k => gG E x None n k j idx).
Definition wm (idx : list nat) : R := mix2 N (e_K E) c (fun n k => gm E x None n k idx).
Definition wl (n c' f l r : nat) : R := rsum (e_K E) (fun k => c n k * gl E x None n k c' f l r).
Lemma rsum_pull m K (a : nat -> R) (b : nat -> nat -> R) : rsum K (fun k => a k * rsum m (fun i => b i k)) = rsum m (fun i => rsum K (fun k => a k * b i k)).
Proof. rewrite (rsum_swap m K). apply rsum_ext. intros k _. rewrite rsum_scal_l. reflexivity. Qed.
Lemma slopes_inner dl dm dp :
  - mean N (fun n => rsum (e_K E) (fun k => w n k * slope E x None n (gG E x None n k) (gm E x None n k) (gl E x None n k) dl dm dp)) = inner E N x wG wm wl dl dm dp.
Proof.
  rewrite (mean_mix2 (fun n k => slope E x None n (gG E x None n k) (gm E x None n k) (gl E x None n k) dl dm dp)). unfold slope, inner. rewrite !mix2_plus. f_equal; [f_equal|].
  - rewrite (mix2_rsum N (e_K E) c (List.length (e_layers E)) (fun j n k => isum (shape (logits_at E j)) (fun idx => gG E x None n k j idx * dl j idx))). apply rsum_ext. intros j _.
    rewrite (mix2_isum N (e_K E) c _ (fun idx n k => gG E x None n k j idx * dl j idx)). apply isum_ext. intros idx _. apply mix2_scal.
  - rewrite (mix2_isum N (e_K E) c _ (fun idx n k => gm E x None n k idx * dm idx)). apply isum_ext. intros idx _. apply mix2_scal.
  - unfold leaf_inner, mix2. apply rsum_ext. intros n _. rewrite rsum_pull. apply rsum_ext. intros f _. rewrite rsum_pull. apply rsum_ext. intros c' _.
    destruct (observed x None n c' f) as [v|].
    + rewrite rsum_pull. apply rsum_ext. intros l _. rewrite rsum_pull. apply rsum_ext. intros r _. unfold wl. rewrite <- rsum_scal_r. apply rsum_ext. intros; ring.
    + rewrite (rsum_ext _ _ (fun _ => 0)) by (intros; ring). apply rsum_zero.
Qed.
End Gradient.
Lemma discriminative_loss {V} g o (E : einet V) N x labels : accepted g o E -> batch E N x -> (0 < N)%nat -> (1 < e_K E)%nat -> labelled (e_K E) N labels ->
  objective_at Discriminative E x labels = objective_at Labels E x labels - objective_at Generative E x labels + ln (INR (e_K E)).
Proof.
  intros A HB HN HK HL. destruct (C62_classification V g o E N x labels A HB HN HK HL) as (loss & ce & gen & acc & E1 & E2 & E3 & _ & E4).
  unfold objective_at, objective_value. unfold loss_is in E1, E3. rewrite E1, E2, E3. cbn [bind fst loss_value toR]. lra.
Qed.
Lemma rsum_minus n f h : rsum n (fun i => f i - h i) = rsum n f - rsum n h.
Proof. induction n as [|n IH]; [rewrite !rsum_0; ring|]. rewrite !rsum_S, IH. ring. Qed.
Lemma mean_minus n f h : mean n (fun i => f i - h i) = mean n f - mean n h.
Proof. unfold mean. rewrite rsum_minus. unfold Rdiv. ring. Qed.
Lemma rsum_term_le n (f : nat -> R) k : (k < n)%nat -> (forall i, (i < n)%nat -> 0 <= f i) -> f k <= rsum n f.
Proof.
  intros Hk H. rewrite <- (rsum_indicator n k f Hk). apply rsum_le. intros i Hi. specialize (H i Hi). destruct (i =? k)%nat; lra.
Qed.
Lemma explicit_gradient {V} g o0 (E0 : einet V) ob N x labels : accepted g o0 E0 -> batch E0 N x -> (0 < N)%nat -> objective_ok ob (e_K E0) N labels ->
  is_gradient g ob E0 N x labels (wG E0 N x (weight ob E0 x labels)) (wm E0 N x (weight ob E0 x labels)) (wl E0 N x (weight ob E0 x labels)).
Proof.
  intros A0 HB HN HO. set (w := weight ob E0 x labels).
  intros o E t0 dl dm dp HC <-. rewrite <- slopes_inner.
  set (d := fun n k => slope (E t0) x None n (gG (E t0) x None n k) (gm (E t0) x None n k) (gl (E t0) x None n k) dl dm dp).
  change (derivable_pt_lim (fun t => objective_at ob (E t) x labels) t0 (- mean N (fun n => rsum (e_K (E t0)) (fun k => w n k * d n k)))).
  assert (HD0: forall n k, (n < N)%nat -> (k < e_K (E t0))%nat -> derivable_pt_lim (fun t => loglik (E t) x None n k) t0 (d n k)).
  { intros n k Hn Hk. eapply slope_holds; eauto. split; [exact HB|exact I]. }
  set (B := rsum N (fun n => rsum (e_K (E t0)) (fun k => Rabs (d n k)))).
  assert (HD: forall n k, (n < N)%nat -> (k < e_K (E t0))%nat -> derivable_pt_lim (fun t => loglik (E t) x None n k) t0 (d n k) /\ Rabs (d n k) <= B).
  { intros n k Hn Hk. split; auto. unfold B. apply Rle_trans with (rsum (e_K (E t0)) (fun k => Rabs (d n k))).
    - apply (rsum_term_le (e_K (E t0)) (fun k => Rabs (d n k)) k Hk). intros; apply Rabs_pos.
    - apply (rsum_term_le N (fun n => rsum (e_K (E t0)) (fun k => Rabs (d n k))) n Hn). intros. apply rsum_nonneg. intros; apply Rabs_pos. }
  pose proof (proj1 (generative_diff g o E t0 dl dm dp HC N x B d HB HN HD labels)) as HG.
  assert (HLab: objective_ok Labels (e_K (E t0)) N labels -> derivable_pt_lim (fun t => objective_at Labels (E t) x labels) t0 (- mean N (fun n => d n (get labels [n])))).
  { intros (HK & HL). exact (proj1 (labels_diff g o E t0 dl dm dp HC N x B d HB HN HD labels HK HL)). }
  assert (HIT: objective_ok Labels (e_K (E t0)) N labels -> forall n, (n < N)%nat -> rsum (e_K (E t0)) (fun k => (if (k =? get labels [n])%nat then 1 else 0) * d n k) = d n (get labels [n])).
  { intros (HK & HL) n Hn. apply (rsum_indicator (e_K (E t0)) (get labels [n]) (d n)). apply HL; auto. }
  destruct ob.
  - exact HG.
  - pose proof (proj1 (lightning_diff g o E t0 dl dm dp HC N x B d HB HN HD)) as HL. eapply dlim_eq; [|exact HL]. f_equal. unfold mean. f_equal. apply rsum_ext. intros n _.
    unfold w, weight. rewrite rsum_scal_l. unfold Rdiv. apply Rmult_comm.
  - eapply dlim_eq; [|exact (HLab HO)]. f_equal. unfold mean. f_equal. apply rsum_ext. intros n Hn. unfold w, weight. symmetry. apply HIT; auto.
  - apply (dlim_ext t0 (fun t => (objective_at Labels (E t) x labels - objective_at Generative (E t) x labels) + ln (INR (e_K (E t0))))).
    { intros t. rewrite <- (classes_at g o E t0 dl dm dp HC t). symmetry. destruct HO as (HK & HL).
      apply (discriminative_loss g (o t) (E t) N); try apply (cu_accepted _ _ _ _ _ _ _ HC); try rewrite (classes_at g o E t0 dl dm dp HC t); auto. eapply batch_at; eauto. }
    eapply dlim_eq; [|apply (derivable_pt_lim_plus (fun t => objective_at Labels (E t) x labels - objective_at Generative (E t) x labels) (fun _ => ln (INR (e_K (E t0)))));
      [apply (derivable_pt_lim_minus (fun t => objective_at Labels (E t) x labels) (fun t => objective_at Generative (E t) x labels)); [exact (HLab HO)|exact HG]|apply derivable_pt_lim_const]].
    symmetry. rewrite Rplus_0_r. transitivity (- mean N (fun n => d n (get labels [n]) - rsum (e_K (E t0)) (fun k => post (E t0) x n k * d n k))); [|rewrite mean_minus; ring].
    f_equal. unfold mean. f_equal. apply rsum_ext. intros n Hn. rewrite <- (HIT HO n Hn), <- rsum_minus. apply rsum_ext. intros k _. unfold w, weight. ring.
Qed.
(** The losses are differentiable: one vector of partial derivatives gives the derivative along every curve of models. *)
Theorem C81_gradient : forall V g o (E : einet V) ob N x labels, accepted g o E -> batch E N x -> (0 < N)%nat -> objective_ok ob (e_K E) N labels ->
  exists G Gm Gl, is_gradient g ob E N x labels G Gm Gl.
Proof. intros. do 3 eexists. eapply explicit_gradient; eauto. Qed.
Print Assumptions C81_gradient.

(** * Descent *)
(** Leaves that move differentiably with the step size, starting at [lf0] *)
Record leaf_path {V} (lf0 : bleaf V) (lfs : R -> bleaf V) (dp : nat -> nat -> nat -> nat -> V -> R) : Prop := {
  lp_start : lfs 0 = lf0;
  lp_size : forall t, same_size lf0 (lfs t);
  lp_supp : forall t v, lf_supp (lfs t) v = lf_supp lf0 v;
  lp_diff : forall c f l r v, (c < lf_C lf0)%nat -> (f < lf_F lf0)%nat -> (l < lf_L lf0)%nat -> (r < lf_R lf0)%nat -> lf_supp lf0 v = true ->
    derivable_pt_lim (fun t => toR (lf_logp (lfs t) [c; f; l; r] v)) 0 (dp c f l r v) }.
Section Path.
Context {V : Type} (g : config) (o : oracle V) (E : einet V).
Hypothesis (A : accepted g o E).
Lemma frozen_leaf : leaf_path (leafE E) (fun _ => leafE E) (fun _ _ _ _ _ => 0).
Proof.
  destruct (leaf_sizes g o E A) as (H & _). split; auto.
  - intros _. repeat split; auto; apply H.
  - intros. apply derivable_pt_lim_const.
Qed.
Lemma logits_finite : Forall (fun l => forall idx, isfin (get (layer_logits l) idx) = true) (e_layers E) /\ forall idx, isfin (get (mix_logits E) idx) = true.
Proof.
  set (Q := (fun f _ => forall idx : list nat, isfin (f idx) = true) : lrel). pose proof (ac_oracle _ _ _ A) as O.
  assert (AL: alike Q o o) by (split; auto; unfold Q; intros; apply O).
  destruct (build_close Q g o o E E AL (ac_build _ _ _ A) (ac_build _ _ _ A)) as (CN & _). split.
  - pose proof (cn_layers _ _ _ CN) as H. revert H. generalize (e_layers E) at 1 3. intros l1. generalize (e_layers E). intros l2 H. induction H as [|a b la lb H1 H2 IH]; constructor; auto.
    destruct a, b; cbn [close_layer] in H1; try contradiction H1; cbn [layer_logits]; try (destruct H1 as (_ & _ & _ & _ & H1); exact H1). intros; reflexivity.
  - pose proof (cn_mixing _ _ _ CN) as H. unfold mix_logits. destruct (e_mixing E) as [m|]; [|intros; reflexivity]. destruct H as (_ & _ & _ & _ & H). exact H.
Qed.
Lemma step_logits_at ls d : forall j k, nth_error (step_layers k ls d) j = option_map (fun l => step_layer l (d (k + j)%nat)) (nth_error ls j).
Proof.
  induction ls as [|l ls IH]; intros j k; destruct j as [|j]; cbn [step_layers nth_error option_map]; auto; [rewrite Nat.add_0_r; reflexivity|]. rewrite IH. do 3 (f_equal; try lia).
  apply functional_extensionality. intros l0. do 2 f_equal. lia.
Qed.
Lemma step_logits d dm lf j idx : inb (shape (logits_at E j)) idx -> toR (get (logits_at (step_net E d dm lf) j) idx) = toR (get (logits_at E j) idx) + d j idx.
Proof.
  unfold logits_at. change (e_layers (step_net E d dm lf)) with (step_layers 0 (e_layers E) d). rewrite step_logits_at. cbn [Nat.add].
  destruct (nth_error (e_layers E) j) as [l|] eqn:El; cbn [option_map].
  - intros Hi. pose proof (proj1 (Forall_forall _ _) (proj1 logits_finite) l (nth_error_In _ _ El) idx) as F. destruct l; cbn [step_layer layer_logits step_slay logits add_to get shape no_logits] in *;
      try (destruct (get (logits _) idx); try discriminate F; reflexivity). destruct idx as [|? [|]]; cbn in Hi; try tauto; lia.
  - intros Hi. destruct idx as [|? [|]]; cbn in Hi; try tauto; lia.
Qed.
Lemma step_mix d dm lf idx : inb (shape (mix_logits E)) idx -> toR (get (mix_logits (step_net E d dm lf)) idx) = toR (get (mix_logits E) idx) + dm idx.
Proof.
  pose proof (proj2 logits_finite idx) as F. unfold mix_logits in *. unfold step_net, with_leaf. cbn [e_mixing]. destruct (e_mixing E) as [m|]; cbn [option_map].
  - intros _. cbn [step_slay logits add_to get]. destruct (get (logits m) idx); try discriminate F; reflexivity.
  - intros Hi. destruct idx as [|? [|]]; cbn in Hi; try tauto; lia.
Qed.
Lemma add_zero (t : tensor num) d : (forall idx, d idx = 0) -> add_to t d = t.
Proof.
  intros H. destruct t as [s f]. unfold add_to. cbn [shape get]. f_equal. apply functional_extensionality. intros idx. rewrite H. destruct (f idx); cbn [nadd]; auto. rewrite Rplus_0_r. reflexivity.
Qed.
Lemma step_zero d dm : (forall j idx, d j idx = 0) -> (forall idx, dm idx = 0) -> step_net E d dm (leafE E) = E.
Proof.
  intros Hd Hm. assert (SL: forall L e, (forall idx, e idx = 0) -> step_slay L e = L).
  { intros L e He. unfold step_slay. rewrite add_zero by auto. destruct L; reflexivity. }
  assert (LS: forall ls j, step_layers j ls d = ls).
  { induction ls as [|l ls IH]; intros j; cbn [step_layers]; auto. rewrite IH. f_equal. destruct l; cbn [step_layer]; rewrite ?SL by auto; reflexivity. }
  unfold step_net, with_leaf. cbn [e_F e_C e_L e_R e_K e_leaf e_perm e_layers e_mixing e_root]. rewrite LS. unfold leafE. destruct E as [a b c e f lf p ls m r]. cbn [e_F e_C e_L e_R e_K e_leaf e_perm e_layers e_mixing e_root].
  replace (option_map (fun m => step_slay m dm) m) with m by (destruct m; cbn; rewrite ?SL by auto; reflexivity). destruct lf; reflexivity.
Qed.
(** Steps of size [t] in one direction *)
Definition line_net (d : nat -> list nat -> R) (dm : list nat -> R) (lfs : R -> bleaf V) (t : R) : einet V := step_net E (fun j idx => t * d j idx) (fun idx => t * dm idx) (lfs t).
Lemma line_start d dm lfs dp : leaf_path (leafE E) lfs dp -> line_net d dm lfs 0 = E.
Proof. intros HP. unfold line_net. rewrite (lp_start _ _ _ HP). apply step_zero; intros; ring. Qed.
Lemma line_curve d dm lfs dp : leaf_path (leafE E) lfs dp ->
  curve g (fun t => moved g o (fun j idx => t * d j idx) (fun idx => t * dm idx) (lfs t)) (line_net d dm lfs) 0 d dm dp.
Proof.
  intros HP. assert (LIN: forall a w, derivable_pt_lim (fun t => a + t * w) 0 w).
  { intros a w. apply (dlim_eq 0 _ (0 + (1 * w + 0 * 0))); [ring|]. apply (derivable_pt_lim_plus (fun _ => a) (fun t => t * w)); [apply derivable_pt_lim_const|].
    apply (derivable_pt_lim_mult (fun t => t) (fun _ => w)); [apply derivable_pt_lim_id|apply derivable_pt_lim_const]. }
  pose proof (line_start d dm lfs dp HP) as E0. split; auto.
  - intros t. apply moved_ok; auto. apply (lp_size _ _ _ HP).
  - rewrite E0. intros j idx Hi. apply (dlim_ext 0 (fun t => toR (get (logits_at E j) idx) + t * d j idx)); [|apply LIN]. intros t. unfold line_net. rewrite step_logits; auto.
  - rewrite E0. intros idx Hi. apply (dlim_ext 0 (fun t => toR (get (mix_logits E) idx) + t * dm idx)); [|apply LIN]. intros t. unfold line_net. rewrite step_mix; auto.
  - intros t v. rewrite E0. unfold line_net. rewrite step_leaf. apply (lp_supp _ _ _ HP).
  - rewrite E0. intros c f l r v H1 H2 H3 H4 H5. eapply dlim_ext; [|apply (lp_diff _ _ _ HP); eauto]. intros t. unfold line_net. rewrite step_leaf. reflexivity.
Qed.
End Path.
Lemma descent_lemma (f : R -> R) D : derivable_pt_lim f 0 D -> D < 0 -> exists e, 0 < e /\ forall t, 0 < t < e -> f t < f 0.
Proof.
  intros H HD. destruct (H (- D / 2) ltac:(lra)) as (del & Hdel). exists del. split; [apply cond_pos|]. intros t (H1 & H2).
  specialize (Hdel t ltac:(lra)). rewrite Rabs_pos_eq in Hdel by lra. specialize (Hdel H2). rewrite Rplus_0_l in Hdel. apply Rabs_def2 in Hdel as (H3 & _).
  assert (K: (f t - f 0) / t < D / 2) by lra. apply Rmult_lt_compat_r with (r := t) in K; [|auto]. unfold Rdiv in K. rewrite Rmult_assoc, Rinv_l, Rmult_1_r in K by lra. nra.
Qed.
(** Every direction in which the loss falls to first order: all sufficiently short steps lower it. *)
Theorem C81_descent : forall V g o (E : einet V) ob N x labels G Gm Gl d dm lfs dp, accepted g o E -> is_gradient g ob E N x labels G Gm Gl ->
  leaf_path (leafE E) lfs dp -> inner E N x G Gm Gl d dm dp < 0 ->
  exists eta, 0 < eta /\ forall t, 0 < t < eta ->
    objective_at ob (step_net E (fun j idx => t * d j idx) (fun idx => t * dm idx) (lfs t)) x labels < objective_at ob E x labels.
Proof.
  intros V g o E ob N x labels G Gm Gl d dm lfs dp A HG HP HI. pose proof (HG _ _ _ _ _ _ (line_curve g o E A d dm lfs dp HP) (line_start g o E A d dm lfs dp HP)) as HD.
  destruct (descent_lemma _ _ HD HI) as (e & He & H). exists e. split; auto. intros t Ht. specialize (H t Ht). cbv beta in H. rewrite (line_start g o E A d dm lfs dp HP) in H. exact H.
Qed.
Print Assumptions C81_descent.
(** Some partial derivative of a logit does not vanish. *)
Definition not_stationary {V} (E : einet V) (G : nat -> list nat -> R) (Gm : list nat -> R) : Prop :=
  (exists j idx, (j < List.length (e_layers E))%nat /\ inb (shape (logits_at E j)) idx /\ G j idx <> 0) \/ (exists idx, inb (shape (mix_logits E)) idx /\ Gm idx <> 0).
Lemma isum_pos s : forall f idx0, (forall idx, inb s idx -> 0 <= f idx) -> inb s idx0 -> 0 < f idx0 -> 0 < isum s f.
Proof.
  induction s as [|m s IH]; intros f [|i idx0] H Hi Hp; cbn [inb] in Hi; try tauto; cbn [isum]; auto. destruct Hi as (Hi & Hr).
  apply Rlt_le_trans with (isum s (fun idx => f (i :: idx))); [apply (IH (fun idx => f (i :: idx)) idx0); auto; intros; apply H; cbn; auto|].
  apply (rsum_term_le m (fun i => isum s (fun idx => f (i :: idx))) i Hi). intros k Hk. apply isum_nonneg. intros; apply H; cbn; auto.
Qed.
Lemma isum_opp s : forall f, isum s (fun idx => - f idx) = - isum s f.
Proof. intros f. replace (- isum s f) with (-1 * isum s f) by ring. rewrite <- isum_scal. apply isum_ext. intros; ring. Qed.
Lemma against {V} (E : einet V) N x G Gm Gl dp (s : R -> R) : (forall a, 0 <= a * s a) -> (forall a, a <> 0 -> 0 < a * s a) -> not_stationary E G Gm -> leaf_inner E N x Gl dp <= 0 ->
  inner E N x G Gm Gl (fun j idx => - s (G j idx)) (fun idx => - s (Gm idx)) dp < 0.
Proof.
  intros H1 H2 HN HL. unfold inner.
  assert (P: 0 < rsum (List.length (e_layers E)) (fun j => isum (shape (logits_at E j)) (fun idx => G j idx * s (G j idx))) + isum (shape (mix_logits E)) (fun idx => Gm idx * s (Gm idx))).
  { assert (Q1: 0 <= rsum (List.length (e_layers E)) (fun j => isum (shape (logits_at E j)) (fun idx => G j idx * s (G j idx)))) by (apply rsum_nonneg; intros; apply isum_nonneg; auto).
    assert (Q2: 0 <= isum (shape (mix_logits E)) (fun idx => Gm idx * s (Gm idx))) by (apply isum_nonneg; auto).
    destruct HN as [(j & idx & Hj & Hi & Hne)|(idx & Hi & Hne)].
    - apply Rplus_lt_le_0_compat; auto. eapply Rlt_le_trans; [|apply (rsum_term_le _ (fun j => isum (shape (logits_at E j)) (fun idx => G j idx * s (G j idx))) j Hj)].
      + apply (isum_pos _ (fun idx => G j idx * s (G j idx)) idx); auto.
      + intros; apply isum_nonneg; auto.
    - apply Rplus_le_lt_0_compat; auto. apply (isum_pos _ (fun idx => Gm idx * s (Gm idx)) idx); auto. }
  rewrite (rsum_ext _ _ (fun j => (-1) * isum (shape (logits_at E j)) (fun idx => G j idx * s (G j idx)))) by (intros; rewrite <- isum_scal; apply isum_ext; intros; ring).
  rewrite rsum_scal_l, (isum_ext _ _ (fun idx => - (Gm idx * s (Gm idx)))), isum_opp by (intros; ring). lra.
Qed.
(** Gradient descent and the first step of Adam with a small learning rate lower the loss of the batch unless all partial derivatives of
    logits are zero; the leaves may stay or move in a direction that does not raise the loss. *)
Theorem C81_first_step : forall V h g o (E : einet V) ob N x labels G Gm Gl lfs dp, hyper_ok h -> accepted g o E -> is_gradient g ob E N x labels G Gm Gl ->
  leaf_path (leafE E) lfs dp -> leaf_inner E N x Gl dp <= 0 -> not_stationary E G Gm ->
  exists eta, 0 < eta /\ forall lr, 0 < lr < eta ->
    objective_at ob (step_net E (fun j idx => lr * - G j idx) (fun idx => lr * - Gm idx) (lfs lr)) x labels < objective_at ob E x labels /\
    objective_at ob (tr_net (train_run h E [mkBs lr G Gm (lfs lr)])) x labels < objective_at ob E x labels.
Proof.
  intros V h g o E ob N x labels G Gm Gl lfs dp Hh A HG HP HL HN. pose proof (ho_eps h Hh) as He.
  destruct (C81_descent V g o E ob N x labels G Gm Gl (fun j idx => - G j idx) (fun idx => - Gm idx) lfs dp A HG HP) as (e1 & P1 & H1).
  { apply (against E N x G Gm Gl dp (fun a => a)); auto; intros a; [|intros Ha]; nra. }
  set (s := fun a => a / (Rabs a + hy_eps h)).
  destruct (C81_descent V g o E ob N x labels G Gm Gl (fun j idx => - s (G j idx)) (fun idx => - s (Gm idx)) lfs dp A HG HP) as (e2 & P2 & H2).
  { assert (SA: forall a, a * s a = (a * a) * / (Rabs a + hy_eps h)) by (intros; unfold s, Rdiv; ring).
    assert (SP: forall a, 0 < / (Rabs a + hy_eps h)) by (intros a; apply Rinv_0_lt_compat; pose proof (Rabs_pos a); lra).
    apply (against E N x G Gm Gl dp s); auto; intros a; rewrite SA; specialize (SP a).
    - apply Rmult_le_pos; [apply Rle_0_sqr|lra].
    - intros Ha. apply Rmult_lt_0_compat; auto. nra. }
  exists (Rmin e1 e2). split; [apply Rmin_pos; auto|]. intros lr (L1 & L2). pose proof (Rmin_l e1 e2). pose proof (Rmin_r e1 e2). split; [apply H1; lra|].
  assert (EQ: tr_net (train_run h E [mkBs lr G Gm (lfs lr)]) = step_net E (fun j idx => lr * - s (G j idx)) (fun idx => lr * - s (Gm idx)) (lfs lr)).
  { unfold train_run. cbn [fold_left bs_lr bs_G bs_Gm bs_leaf adam_net tr_net tr_start tr_mom tr_mix]. unfold adam_net. cbn [tr_net tr_start tr_mom tr_mix].
    assert (FC: forall a, adam_change h lr (adam_moments h fresh a) = lr * - s a) by (intros a; rewrite first_change by auto; unfold s, Rdiv; ring).
    f_equal; [apply functional_extensionality; intros j|]; apply functional_extensionality; intros idx; apply FC. }
  rewrite EQ. apply H2. lra.
Qed.
Print Assumptions C81_first_step.

(** * Learning rates *)
(** models_pl.py:132-136: the rate starts at [lr] and only falls, to a tenth and to a hundredth. *)
Theorem C81_rates : forall lr epochs epoch, 0 < lr -> (2 <= epochs)%nat ->
  lit_rate lr epochs 0 = lr /\
  ((10 * epoch + 10 <= 7 * epochs)%nat -> lit_rate lr epochs epoch = lr) /\
  ((7 * epochs <= 10 * epoch)%nat -> (10 * epoch + 10 <= 9 * epochs)%nat -> lit_rate lr epochs epoch = lr / 10) /\
  ((9 * epochs <= 10 * epoch)%nat -> lit_rate lr epochs epoch = lr / 100) /\
  0 < lit_rate lr epochs (S epoch) <= lit_rate lr epochs epoch.
Proof.
  intros lr epochs epoch Hlr He.
  assert (CNT: forall e, lit_rate lr epochs e = lr * (1 / 10) ^ ((if (7 * epochs / 10 <=? e)%nat then 1 else 0) + (if (9 * epochs / 10 <=? e)%nat then 1 else 0))).
  { intros e. unfold lit_rate, multistep, lit_milestones. cbn [filter]. destruct (7 * epochs / 10 <=? e)%nat, (9 * epochs / 10 <=? e)%nat; reflexivity. }
  pose proof (Nat.div_mod (7 * epochs) 10 ltac:(lia)) as D7. pose proof (Nat.mod_upper_bound (7 * epochs) 10 ltac:(lia)) as U7.
  pose proof (Nat.div_mod (9 * epochs) 10 ltac:(lia)) as D9. pose proof (Nat.mod_upper_bound (9 * epochs) 10 ltac:(lia)) as U9.
  rewrite !CNT. set (a := (7 * epochs / 10)%nat) in *. set (b := (9 * epochs / 10)%nat) in *. repeat split.
  - destruct (Nat.leb_spec a 0); [lia|]. destruct (Nat.leb_spec b 0); [lia|]. cbn. lra.
  - intros H. destruct (Nat.leb_spec a epoch); [lia|]. destruct (Nat.leb_spec b epoch); [lia|]. cbn. lra.
  - intros H1 H2. destruct (Nat.leb_spec a epoch); [|lia]. destruct (Nat.leb_spec b epoch); [lia|]. cbn. lra.
  - intros H. destruct (Nat.leb_spec a epoch); [|lia]. destruct (Nat.leb_spec b epoch); [|lia]. cbn. lra.
  - apply Rmult_lt_0_compat; auto. apply pow_lt. lra.
  - destruct (Nat.leb_spec a (S epoch)), (Nat.leb_spec b (S epoch)), (Nat.leb_spec a epoch), (Nat.leb_spec b epoch); try lia; cbn; lra.
Qed.
Print Assumptions C81_rates.
(** A single epoch is trained with a hundredth of the configured rate: both milestones are epoch 0. *)
Theorem C81_rates_refuted : forall lr, lit_rate lr 1 0 = lr / 100.
Proof. intros lr. unfold lit_rate, multistep, lit_milestones. change (7 * 1 / 10)%nat with 0%nat. change (9 * 1 / 10)%nat with 0%nat. cbn. lra. Qed.
Print Assumptions C81_rates_refuted.

(** ** Concrete case: a sum of two products of coins, whose first component has a different bias *)
Definition st_g : config := plain 2 1 1 2 1 1 0 0 TEinsum STopDown.
Definition st_p (key : list nat) : R := match key with [_; _; O; _] => 1 / 4 | _ => 3 / 4 end.
Definition st_o : oracle nat := mkOracle (fun _ _ => Fin 0) (fun _ => Fin 0) (fun _ => Fin 0) (fun _ => Fin 0) [2]%nat (fun _ => [1; 0]%nat) (fun F C L Rn => Ok (coin st_p F C L Rn)).
Definition st_x : tensor (option nat) := two_rows 1 2 (fun _ _ _ => Some 0%nat).
Definition st_L : slay := mkL 1 2 1 1 (mkT [1; 2; 1; 1]%nat (fun _ => Fin 0)).
Definition st_E : einet nat := mkE 2 1 2 1 1 (LSimple (coin st_p 2 1 2 1) 1 [1; 0]%nat (argsort [1; 0]%nat)) None [LSum st_L] None None.
Lemma st_oracle : oracle_ok st_g st_o.
Proof.
  split; cbn [st_o o_logits o_top o_mix o_root o_sizes o_perm o_leaf]; auto.
  - intros r _. apply Permutation.perm_swap.
  - eexists. split; [reflexivity|]. split; [apply coin_ok|]. repeat split.
Qed.
Lemma st_accepted : accepted st_g st_o st_E.
Proof.
  split; [reflexivity|apply st_oracle|]. destruct (build_succeeds st_g st_o) as (E & HE).
  - apply plain_valid; try lia; try lra; try congruence. simpl; lia.
  - reflexivity.
  - apply st_oracle.
  - exists 0%R. split; [constructor|lra].
  - cbn [st_g plain g_depth zval]. lia.
  - discriminate.
  - rewrite HE. f_equal. unfold build in HE. apply bind_ok in HE as ([] & _ & HE). cbn [st_g plain g_struct] in HE. unfold build_top_down in HE.
    apply bind_ok in HE as (ls & Hls & HE). injection Hls as <-. apply bind_ok in HE as (ls' & Hls' & HE). change (zval (g_depth st_g) =? 0)%Z with true in Hls'. cbv iota in Hls'.
    apply bind_ok in Hls' as (L & HL & Hls'). injection Hls' as <-. pose proof (new_layer_eq _ _ _ _ _ _ _ _ HL) as EL. subst L.
    apply bind_ok in HE as (l & Hl & HE). injection Hl as <-. apply bind_ok in HE as (lf & Hlf & HE). injection Hlf as <-.
    apply bind_ok in HE as (m & Hm & HE). injection Hm as <-. apply bind_ok in HE as (r & Hr & HE). injection Hr as <-. injection HE as <-. reflexivity.
Qed.
Lemma st_batch : batch st_E 2 st_x.
Proof. apply (two_rows_batch st_E 1 2 (fun _ _ _ => Some 0%nat)); auto. intros n c f u H. injection H as <-. lia. Qed.
(** The loss when the first logit is [t] *)
Definition st_dir (j : nat) (idx : list nat) : R := only_logit 0 [0; 0; 0; 0]%nat j idx.
Definition st_line (t : R) : einet nat := line_net st_E st_dir (fun _ => 0) (fun _ => leafE st_E) t.
Lemma st_start : st_line 0 = st_E.
Proof. apply (line_start st_g st_o st_E st_accepted _ _ _ _ (frozen_leaf st_g st_o st_E st_accepted)). Qed.
Lemma st_loss t : objective_at Generative (st_line t) st_x (mkT [2%nat] (fun _ => 0%nat)) = - ln ((exp t / 16 + 9 / 16) / (exp t + 1)).
Proof.
  pose proof (line_curve st_g st_o st_E st_accepted st_dir (fun _ => 0) _ _ (frozen_leaf st_g st_o st_E st_accepted)) as HC.
  pose proof (cu_accepted _ _ _ _ _ _ _ HC t) as A. cbv beta in A. fold (st_line t) in A.
  assert (HB: batch (st_line t) 2 st_x).
  { apply (batch_at st_g _ (fun t => st_line t) 0 _ _ _ HC). change (batch (st_line 0) 2 st_x). rewrite st_start. exact st_batch. }
  unfold objective_at, objective_value. rewrite (C61_generative nat st_g _ (st_line t) 2 st_x _ A HB ltac:(lia)). cbn [loss_value toR].
  assert (M: forall n, (n < 2)%nat -> marg (st_line t) st_x n = (exp t / 16 + 9 / 16) / (exp t + 1)).
  { intros n Hn. destruct (lik_loglik st_g _ (st_line t) 2 st_x n 0 A HB Hn ltac:(cbn; lia)) as (P & EL).
    unfold marg. change (e_K (st_line t)) with 1%nat. rewrite rsum_S, rsum_0. cbn [INR]. unfold Rdiv at 1. rewrite Rinv_1, Rmult_1_r, Rplus_0_l.
    pose proof (loglik_at st_g _ (fun t => st_line t) 0 _ _ _ HC 2 st_x None n 0) as LL. cbv beta in LL.
    assert (EV: evidence (st_line 0) 2 st_x None) by (split; [rewrite st_start; exact st_batch|exact I]). specialize (LL EV Hn ltac:(cbn; lia) t).
    rewrite <- (exp_ln (lik (st_line t) st_x None n 0)) by auto. rewrite EL, LL.
    assert (V: neteval (fnet (st_line t)) (q0 st_x None n (st_line t)) 0 = (exp t / 16 + 9 / 16) / (exp t + 1)); [|rewrite V; apply exp_ln; apply Rdiv_lt_0_compat; pose proof (exp_pos t); lra].
    unfold neteval. cbn [fnet net_with nR]. change (e_R (st_line t)) with 1%nat. rewrite rsum_S, rsum_0.
    change (nmix (fnet (st_line t)) 0 0) with 1. change (nls (fnet (st_line t))) with [sum_u (step_slay st_L (fun idx => t * st_dir 0 idx)) 1].
    assert (LV: forall l, (l < 2)%nat -> leafval (fnet (st_line t)) (q0 st_x None n (st_line t)) 0%nat l 0%nat = if (l =? 0)%nat then 1 / 16 else 9 / 16).
    { intros l Hl. unfold leafval. change (nF (fnet (st_line t))) with 2%nat. change (nC (fnet (st_line t))) with 1%nat. rewrite !rprod_S, !rprod_0.
      change (ngroup (fnet (st_line t)) 0 0) with 0%nat. change (ngroup (fnet (st_line t)) 0 1) with 0%nat. cbn [Nat.eqb]. rewrite ?rprod_0.
      assert (Q: forall f, q0 st_x None n (st_line t) 0%nat f l 0%nat = st_p [0; f; l; 0]%nat).
      { intros f. unfold q0, lval. change (row st_x None n 0%nat f) with (Some 0%nat). unfold pdf. change (leafE (st_line t)) with (coin st_p 2 1 2 1). cbn [coin lf_logp Nat.eqb toR]. apply exp_ln.
        destruct l as [|[|l]]; cbn; lra. }
      rewrite !Q. destruct l as [|[|l]]; [| |lia]; cbn [st_p Nat.eqb]; lra. }
    set (v := leafval (fnet (st_line t)) (q0 st_x None n (st_line t))) in *. set (U := sum_u _ _).
    change (evals [U] v 0%nat 0%nat 0%nat) with (ueval U v 0%nat 0%nat 0%nat). unfold ueval, uprod, U. cbn [sum_u uK uW ukids usel step_slay sin st_L lprod map fold_right]. rewrite !rsum_S, rsum_0.
    rewrite !LV by lia. cbn [Nat.eqb].
    assert (W: forall k, (k < 2)%nat -> linsum_w (step_slay st_L (fun idx => t * st_dir 0 idx)) 1 0 0 0 k = (if (k =? 0)%nat then exp t else 1) / (exp t + 1)).
    { intros k Hk. unfold linsum_w, wsoft, rsoftmax. change (sin (step_slay st_L (fun idx => t * st_dir 0 idx))) with 2%nat. rewrite !rsum_S, rsum_0.
      assert (LG: forall i, (i < 2)%nat -> exp (toR (get (logits (step_slay st_L (fun idx => t * st_dir 0 idx))) [0; i; 0; 0]%nat) / 1) = if (i =? 0)%nat then exp t else 1).
      { intros i Hi. cbn [step_slay logits add_to get st_L nadd toR]. unfold st_dir, only_logit. cbn [Nat.eqb]. destruct i as [|[|i]]; [| |lia].
        - destruct (list_eq_dec Nat.eq_dec _ _) as [_|C]; [|congruence]. cbn [Nat.eqb]. f_equal. field.
        - destruct (list_eq_dec Nat.eq_dec _ _) as [C|_]; [discriminate C|]. cbn [Nat.eqb]. transitivity (exp 0); [f_equal; field|apply exp_0]. }
      rewrite !LG by lia. cbn [Nat.eqb]. f_equal. ring. }
    rewrite !W by lia. cbn [Nat.eqb]. pose proof (exp_pos t). field. lra. }
  unfold mean. rewrite !rsum_S, rsum_0, !M by lia. cbn [INR]. field.
Qed.
Lemma st_falls G Gm Gl : is_gradient st_g Generative st_E 2 st_x (mkT [2%nat] (fun _ => 0%nat)) G Gm Gl -> G 0%nat [0; 0; 0; 0]%nat = 2 / 5.
Proof.
  intros HG. pose proof (frozen_leaf st_g st_o st_E st_accepted) as FL.
  pose proof (HG _ _ _ _ _ _ (line_curve st_g st_o st_E st_accepted st_dir (fun _ => 0) _ _ FL) st_start) as HD. fold st_line in HD. cbv beta in HD.
  assert (I: inner st_E 2 st_x G Gm Gl st_dir (fun _ => 0) (fun _ _ _ _ _ => 0) = G 0%nat [0; 0; 0; 0]%nat).
  { unfold inner. change (List.length (e_layers st_E)) with 1%nat. rewrite rsum_S, rsum_0. change (shape (logits_at st_E 0)) with [1; 2; 1; 1]%nat. change (shape (mix_logits st_E)) with [0%nat].
    assert (L0: leaf_inner st_E 2 st_x Gl (fun _ _ _ _ _ => 0) = 0).
    { unfold leaf_inner. rewrite (rsum_ext _ _ (fun _ => 0)); [apply rsum_zero|]. intros n _. rewrite (rsum_ext _ _ (fun _ => 0)); [apply rsum_zero|]. intros f _.
      rewrite (rsum_ext _ _ (fun _ => 0)); [apply rsum_zero|]. intros c _. destruct (observed st_x None n c f); auto. rewrite (rsum_ext _ _ (fun _ => 0)); [apply rsum_zero|]. intros l _.
      rewrite (rsum_ext _ _ (fun _ => 0)); [apply rsum_zero|]. intros; ring. }
    rewrite L0. cbn [isum]. rewrite !rsum_S, !rsum_0. unfold st_dir, only_logit. cbn [Nat.eqb].
    destruct (list_eq_dec Nat.eq_dec [0; 0; 0; 0]%nat [0; 0; 0; 0]%nat) as [_|C]; [|congruence]. destruct (list_eq_dec Nat.eq_dec [0; 1; 0; 0]%nat [0; 0; 0; 0]%nat) as [C|_]; [discriminate C|]. ring. }
  rewrite I in HD. apply (uniqueness_limite _ _ _ _ HD).
  apply (dlim_ext 0 (fun t => - ln ((exp t / 16 + 9 / 16) / (exp t + 1)))); [intros t; symmetry; apply st_loss|].
  apply (dlim_ext 0 (fun t => - (ln (exp t + 9) + - ln (exp t + 1) + - ln 16))).
  { intros t. f_equal. pose proof (exp_pos t). replace ((exp t / 16 + 9 / 16) / (exp t + 1)) with ((exp t + 9) * / (exp t + 1) * / 16) by (field; lra).
    rewrite !ln_mult, !ln_Rinv; try lra; try (apply Rinv_0_lt_compat; lra). apply Rmult_lt_0_compat; [lra|apply Rinv_0_lt_compat; lra]. }
  assert (DE: forall a, 0 < a -> derivable_pt_lim (fun t => ln (exp t + a)) 0 (/ (1 + a))).
  { intros a Ha. eapply dlim_eq; [|apply (derivable_pt_lim_comp (fun t => exp t + a) ln 0 (1 + 0) (/ (exp 0 + a)))].
    - rewrite exp_0. ring.
    - apply (derivable_pt_lim_plus exp (fun _ => a)); [|apply derivable_pt_lim_const]. eapply dlim_eq; [apply exp_0|apply derivable_pt_lim_exp].
    - apply derivable_pt_lim_ln. pose proof (exp_pos 0). lra. }
  eapply dlim_eq; [|apply (derivable_pt_lim_opp (fun t => ln (exp t + 9) + - ln (exp t + 1) + - ln 16));
    apply (derivable_pt_lim_plus (fun t => ln (exp t + 9) + - ln (exp t + 1)) (fun _ => - ln 16)); [|apply derivable_pt_lim_const];
    apply (derivable_pt_lim_plus (fun t => ln (exp t + 9)) (fun t => - ln (exp t + 1))); [apply DE; lra|apply (derivable_pt_lim_opp (fun t => ln (exp t + 1))); apply DE; lra]].
  field.
Qed.
Example C81_ex : exists G Gm eta, G 0%nat [0; 0; 0; 0]%nat = 2 / 5 /\ 0 < eta /\ forall lr, 0 < lr < eta ->
  objective_at Generative (tr_net (train_run adam_defaults st_E [mkBs lr G Gm (leafE st_E)])) st_x (mkT [2%nat] (fun _ => 0%nat)) <
  objective_at Generative st_E st_x (mkT [2%nat] (fun _ => 0%nat)).
Proof.
  destruct (C81_gradient nat st_g st_o st_E Generative 2 st_x (mkT [2%nat] (fun _ => 0%nat)) st_accepted st_batch ltac:(lia) I) as (G & Gm & Gl & HG). exists G, Gm.
  pose proof (st_falls G Gm Gl HG) as EG. pose proof (frozen_leaf st_g st_o st_E st_accepted) as FL.
  destruct (C81_first_step nat adam_defaults st_g st_o st_E Generative 2 st_x (mkT [2%nat] (fun _ => 0%nat)) G Gm Gl _ _ (proj1 C81_defaults) st_accepted HG FL) as (eta & He & H).
  - right. unfold leaf_inner. rewrite (rsum_ext _ _ (fun _ => 0)); [apply rsum_zero|]. intros n _. rewrite (rsum_ext _ _ (fun _ => 0)); [apply rsum_zero|]. intros f _.
    rewrite (rsum_ext _ _ (fun _ => 0)); [apply rsum_zero|]. intros c _. destruct (observed st_x None n c f); auto. rewrite (rsum_ext _ _ (fun _ => 0)); [apply rsum_zero|]. intros l _.
    rewrite (rsum_ext _ _ (fun _ => 0)); [apply rsum_zero|]. intros; ring.
  - left. exists 0%nat, [0; 0; 0; 0]%nat. split; [cbn; lia|]. split; [cbn; lia|]. rewrite EG. lra.
  - exists eta. split; auto. split; auto. intros lr Hlr. apply H; auto.
Qed.
(** Three steps of a run with the default hyperparameters *)
Example C81_run_ex : forall G Gm, let steps := [mkBs (1 / 10) G Gm (leafE st_E); mkBs (1 / 10) (fun _ _ => 5) Gm (leafE st_E); mkBs (1 / 100) G Gm (leafE st_E)] in
  Forall (step_ok (leafE st_E)) steps /\
  exists y y', forward st_E st_x None = Ok y /\ forward (tr_net (train_run adam_defaults st_E steps)) st_x None = Ok y' /\
    Rabs (toR (get y [1; 0]%nat) - toR (get y' [1; 0]%nat)) <= 2 * (21 / 100 * reach adam_defaults) * INR (nodes st_g).
Proof.
  intros G Gm steps. pose proof (lp_size _ _ _ (frozen_leaf st_g st_o st_E st_accepted) 0) as SZ.
  assert (F: Forall (step_ok (leafE st_E)) steps) by (do 3 (apply Forall_cons; [split; [cbn; lra|exact SZ]|]); constructor). split; auto.
  destruct (C81_drift nat adam_defaults st_g st_o st_E steps 0 2 st_x None (proj1 C81_defaults) st_accepted F) as (y & y' & E1 & E2 & H).
  - split; auto. intros. cbn [steps last_leaf fold_left bs_leaf]. unfold Rminus. rewrite Rplus_opp_r, Rabs_R0. lra.
  - split; [exact st_batch|exact I].
  - exists y, y'. split; auto. split; auto. destruct (H 1%nat 0%nat ltac:(lia) ltac:(cbn; lia)) as (_ & _ & H3). replace (total_rate steps) with (21 / 100) in H3 by (unfold total_rate; cbn; lra). lra.
Qed.
