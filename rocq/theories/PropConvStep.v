(** C89: training steps on convolutional circuits. *)
From Coq Require Import List Arith Lia Bool Reals Lra FunctionalExtensionality.
Import ListNotations.
From Verif Require Import Base RSum Num Tensor Prob Layers Circuit Net RefFwd Leaf RefLeaf TypeChecks Einet RefEinet Spec RefSpec Family RefFamily ConvPc RefConv RefConvNet RefConvS PropConv Ex
  Train RefTrain PropTrain RefPerturb RefGrad PropPerturb PropGrad PropConvD RefConvG ConvTrain PropConvG Step RefStep PropStep ConvStep RefConvStep.
Local Open Scope R_scope.
Local Arguments Nat.div : simpl never. Local Arguments Nat.modulo : simpl never. Local Arguments Nat.sub : simpl never.
Local Arguments Nat.mul : simpl never. Local Arguments Nat.add : simpl never.

(** * Runs *)
Section Runs.
Context {V : Type}.
Lemma cwithin_trans d1 d2 (a b c : coracle V) : conv_within d1 a b -> conv_within d2 b c -> conv_within (d1 + d2) a c.
Proof.
  intros H1 H2 i s idx Hi. specialize (H1 i s idx Hi). specialize (H2 i s idx Hi).
  replace (toR (get (co_logits a i s) idx) - toR (get (co_logits c i s) idx)) with
    ((toR (get (co_logits a i s) idx) - toR (get (co_logits b i s) idx)) + (toR (get (co_logits b i s) idx) - toR (get (co_logits c i s) idx))) by ring.
  eapply Rle_trans; [apply Rabs_triang|lra].
Qed.
Lemma cwithin_refl (a : coracle V) : conv_within 0 a a.
Proof. intros i s idx _. unfold Rminus. rewrite Rplus_opp_r, Rabs_R0. lra. Qed.
Lemma cmoved_within g (o : coracle V) d lf delta : conv_oracle o -> (forall j idx, Rabs (d j idx) <= delta) -> conv_within delta o (conv_moved g o d lf).
Proof.
  intros O Hd i s idx Hi. cbn [conv_moved co_logits add_to get]. destruct (cor_logits _ O i s) as (_ & F). specialize (F idx Hi).
  destruct (get (co_logits o i s) idx) as [a| | |]; try discriminate F. cbn [nadd toR]. replace (a - (a + d (place g i) idx)) with (- d (place g i) idx) by ring. rewrite Rabs_Ropp. auto.
Qed.
Lemma conv_leaf_size g C H W (o : coracle V) P : conv_accepted g C H W o P -> same_size (cp_leaf P) (cp_leaf P).
Proof.
  intros A. destruct (build_conv_inv _ _ _ _ _ _ A) as (c0 & rest & _ & _ & _ & _ & _ & El & _). destruct (cor_leaf _ (cac_oracle _ _ _ _ _ _ A) _ _ _ _ _ El) as (_ & _ & _ & _ & _ & L). repeat split; auto; apply L.
Qed.
(** The learning rates of a run and its leaves *)
Definition conv_rate (steps : list (conv_step V)) : R := fold_right (fun s a => cst_lr s + a) 0 steps.
Definition conv_last_leaf (lf : bleaf V) (steps : list (conv_step V)) : bleaf V := fold_left (fun _ s => cst_leaf s) steps lf.
Definition conv_step_ok (lf : bleaf V) (s : conv_step V) : Prop := 0 <= cst_lr s /\ same_size lf (cst_leaf s).
Lemma crun_inv h g C H W (Hh : hyper_ok h) : forall steps (T : ctraining V) o lf0, conv_accepted g C H W o (ct_net T) -> (forall j idx, mom_inv h (ct_mom T j idx)) ->
  same_size lf0 (cp_leaf (ct_net T)) -> Forall (conv_step_ok lf0) steps ->
  let T' := fold_left (fun T s => adam_conv h (cst_lr s) T (cst_G s) (cst_leaf s)) steps T in
  exists o', conv_accepted g C H W o' (ct_net T') /\ conv_within (conv_rate steps * reach h) o o' /\ cp_leaf (ct_net T') = conv_last_leaf (cp_leaf (ct_net T)) steps.
Proof.
  induction steps as [|s steps IH]; intros T o lf0 A HI HS HF; cbn [fold_left conv_rate fold_right conv_last_leaf].
  - exists o. rewrite Rmult_0_l. split; auto. split; [apply cwithin_refl|auto].
  - inversion HF as [|? ? (Hlr & Hsz) HF']. subst. set (T1 := adam_conv h (cst_lr s) T (cst_G s) (cst_leaf s)).
    assert (HSS: same_size (cp_leaf (ct_net T)) (cst_leaf s)) by (destruct HS as (_ & S1 & S2 & S3 & S4); unfold same_size in *; rewrite S1, S2, S3, S4; exact Hsz).
    assert (A1: conv_accepted g C H W (conv_moved g o (fun j idx => adam_change h (cst_lr s) (ct_mom T1 j idx)) (cst_leaf s)) (ct_net T1)) by (apply conv_moved_ok; auto).
    destruct (IH T1 _ lf0 A1) as (o' & A' & W' & L'); auto.
    + intros; apply moments_inv; auto.
    + exists o'. split; [exact A'|]. split; [|exact L']. rewrite Rmult_plus_distr_r. eapply cwithin_trans; [|exact W']. apply cmoved_within; [apply A|].
      intros. apply change_le; auto; [apply moments_inv; auto|cbn; lia].
Qed.
End Runs.

(** Training with Adam on any gradients: the model stays one that the constructor returns for the same configuration and image size, and
    its logits stay within the sum of the learning rates times [reach]. *)
Theorem C89_run : forall V h g C H W (o : coracle V) P steps, hyper_ok h -> conv_accepted g C H W o P -> Forall (conv_step_ok (cp_leaf P)) steps ->
  let P' := ct_net (conv_run h P steps) in
  exists o', conv_accepted g C H W o' P' /\ conv_within (conv_rate steps * reach h) o o' /\ cp_leaf P' = conv_last_leaf (cp_leaf P) steps.
Proof.
  intros V h g C H W o P steps Hh A HF. apply (crun_inv h g C H W Hh steps (ct_start P) o (cp_leaf P)); auto.
  - intros; apply fresh_inv.
  - eapply conv_leaf_size; eauto.
Qed.
Print Assumptions C89_run.
(** After any run the likelihoods of all images sum to one. *)
Theorem C89_normalized : forall h g C H W (o : coracle nat) P steps B st, hyper_ok h -> conv_accepted g C H W o P -> conv_fits g H W -> Forall (conv_step_ok (cp_leaf P)) steps ->
  discrete_leaf B (conv_last_leaf (cp_leaf P) steps) ->
  lsum (fun v => clik (ct_net (conv_run h P steps)) st (one_image C H W (pixels H W v)) 0) (vectors B (C * H * W)) = 1.
Proof.
  intros h g C H W o P steps B st Hh A HF HS HB. destruct (C89_run nat h g C H W o P steps Hh A HS) as (o' & A' & _ & L). eapply C40_sum_to_one; eauto. rewrite L. exact HB.
Qed.
Print Assumptions C89_normalized.
(** Log-likelihoods after a run *)
Theorem C89_drift : forall V h g C H W (o : coracle V) P steps eps st st' N x, hyper_ok h -> conv_accepted g C H W o P -> conv_fits g H W -> Forall (conv_step_ok (cp_leaf P)) steps ->
  leaves_within eps (cp_leaf P) (conv_last_leaf (cp_leaf P) steps) -> images P N x ->
  exists y y', snd (conv_forward P st x) = Ok y /\ snd (conv_forward (ct_net (conv_run h P steps)) st' x) = Ok y' /\ forall n, (n < N)%nat ->
    isfin (get y [n]) = true /\ isfin (get y' [n]) = true /\
    Rabs (toR (get y [n]) - toR (get y' [n])) <= 2 * (conv_rate steps * reach h) * INR (conv_positions g H W) + eps * count_pixels C H W x n.
Proof.
  intros V h g C H W o P steps eps st st' N x Hh A HF HS HL Hx. destruct (C89_run V h g C H W o P steps Hh A HS) as (o' & A' & Wi & L).
  apply (C77_loglikelihood V g C H W o o' P _ _ eps st st' N x A A' HF Wi); auto. rewrite L. exact HL.
Qed.
Print Assumptions C89_drift.

(** * The gradient of the loss *)
(** The loss of a batch, models_pl.py:182-199 *)
Definition conv_loss {V} (P : convpc V) (st : cstate) (x : tensor (option V)) : R := loss_value (snd (conv_nll P st x RMean)).
Definition cleaf_inner {V} (C H W : nat) (P : convpc V) (N : nat) (x : tensor (option V)) (Gl : nat -> nat -> nat -> nat -> R) (dp : nat -> nat -> nat -> V -> R) : R :=
  rsum N (fun n => rsum C (fun c => rsum H (fun h => rsum W (fun w => match get x [n; c; h; w] with
    | Some v => rsum (cp_L P) (fun l => Gl n c (h * W + w)%nat l * dp c (h * W + w)%nat l v)
    | None => 0 end)))).
(** The derivative in the direction [dl], [dp] for the partial derivatives [G] (logits) and [Gl n] (log-probabilities of the leaves at the
    pixels of image [n]) *)
Definition cinner {V} (C H W : nat) (P : convpc V) (N : nat) (x : tensor (option V)) (G : nat -> list nat -> R) (Gl : nat -> nat -> nat -> nat -> R)
    (dl : nat -> list nat -> R) (dp : nat -> nat -> nat -> V -> R) : R :=
  rsum (List.length (cp_layers P)) (fun j => isum (shape (conv_logits P j)) (fun idx => G j idx * dl j idx)) + cleaf_inner C H W P N x Gl dp.
Definition is_cgradient {V} (g : cconfig) (C H W : nat) (P : convpc V) (N : nat) (x : tensor (option V)) (G : nat -> list nat -> R) (Gl : nat -> nat -> nat -> nat -> R) : Prop :=
  forall o P' t0 dl dp st, conv_curve g C H W o P' t0 dl dp -> P' t0 = P -> derivable_pt_lim (fun t => conv_loss (P' t) (st t) x) t0 (cinner C H W P N x G Gl dl dp).

Section Gradient.
Context {V : Type} (C H W : nat) (P : convpc V) (N : nat) (x : tensor (option V)).
Let c (n k : nat) : R := - / INR N.
Lemma cmean_mix2 (a : nat -> R) : - mean N a = mix2 N 1 c (fun n _ => a n).
Proof.
  unfold mean, mix2, c, Rdiv. rewrite (rsum_ext N (fun n => rsum 1 _) (fun n => - / INR N * a n)) by (intros; rewrite rsum_S, rsum_0; ring). rewrite rsum_scal_l. ring.
Qed.
Definition cwG (j : nat) (idx : list nat) : R := - mean N (fun n => cgG P x n j idx).
Definition cwl (n c' f l : nat) : R := - / INR N * cgl P x n c' f l.
Lemma cslopes_inner dl dp : - mean N (fun n => conv_slope C H W P x n (cgG P x n) (cgl P x n) dl dp) = cinner C H W P N x cwG cwl dl dp.
Proof.
  rewrite (cmean_mix2 (fun n => conv_slope C H W P x n (cgG P x n) (cgl P x n) dl dp)). unfold conv_slope, cinner. rewrite mix2_plus. f_equal.
  - rewrite (mix2_rsum N 1 c (List.length (cp_layers P)) (fun j n _ => isum (shape (conv_logits P j)) (fun idx => cgG P x n j idx * dl j idx))). apply rsum_ext. intros j _.
    rewrite (mix2_isum N 1 c _ (fun idx n _ => cgG P x n j idx * dl j idx)). apply isum_ext. intros idx _. unfold cwG. rewrite cmean_mix2. apply (mix2_scal N 1 c (fun n _ => cgG P x n j idx)).
  - unfold cleaf_inner, mix2. apply rsum_ext. intros n _. rewrite rsum_S, rsum_0, Rplus_0_l. unfold c. rewrite <- rsum_scal_l. apply rsum_ext. intros c' _. rewrite <- rsum_scal_l. apply rsum_ext. intros h _.
    rewrite <- rsum_scal_l. apply rsum_ext. intros w _. destruct (get x [n; c'; h; w]); [|ring]. rewrite <- rsum_scal_l. apply rsum_ext. intros l _. unfold cwl. ring.
Qed.
End Gradient.
Lemma mean_abs N f : (0 < N)%nat -> Rabs (mean N f) <= mean N (fun n => Rabs (f n)).
Proof.
  intros HN. unfold mean, Rdiv. pose proof (lt_0_INR N HN) as P. rewrite Rabs_mult, (Rabs_pos_eq (/ INR N)) by (left; apply Rinv_0_lt_compat; auto).
  apply Rmult_le_compat_r; [left; apply Rinv_0_lt_compat; auto|]. apply rsum_abs_le. intros; lra.
Qed.
Lemma mean_const N a : (0 < N)%nat -> mean N (fun _ => a) = a.
Proof. intros HN. unfold mean. rewrite rsum_const. pose proof (lt_0_INR N HN). field. lra. Qed.
Lemma mean_mono N f h : (0 < N)%nat -> (forall n, (n < N)%nat -> f n <= h n) -> mean N f <= mean N h.
Proof. intros HN Hf. unfold mean, Rdiv. apply Rmult_le_compat_r; [left; apply Rinv_0_lt_compat, lt_0_INR; auto|]. apply rsum_le. auto. Qed.
Lemma mean_rsum N m (f : nat -> nat -> R) : mean N (fun n => rsum m (fun i => f n i)) = rsum m (fun i => mean N (fun n => f n i)).
Proof. unfold mean, Rdiv. rewrite rsum_swap, <- rsum_scal_r. reflexivity. Qed.
Lemma mean_isum N s : forall f : nat -> list nat -> R, mean N (fun n => isum s (f n)) = isum s (fun idx => mean N (fun n => f n idx)).
Proof.
  induction s as [|m s IH]; intros f; cbn [isum]; [reflexivity|]. rewrite (mean_rsum N m (fun n i => isum s (fun idx => f n (i :: idx)))). apply rsum_ext. intros i _.
  apply (IH (fun n idx => f n (i :: idx))).
Qed.
(** The loss is differentiable: one vector of partial derivatives gives the derivative along every curve of models, whatever the caches
    hold.  No partial derivative of a logit exceeds one; those of one sum add up to zero; the sum of their absolute values is bounded by the
    number of positions with sums, whatever the batch. *)
Theorem C89_gradient : forall V g C H W (o : coracle V) P N x, conv_accepted g C H W o P -> conv_fits g H W -> images P N x -> (0 < N)%nat ->
  exists G Gl, is_cgradient g C H W P N x G Gl /\
    (forall j idx, inb (shape (conv_logits P j)) idx -> Rabs (G j idx) <= 1) /\
    (forall j Co Ci h w a y z, shape (conv_logits P j) = [Co; Ci; h; w] -> (a < Co)%nat -> (y < h)%nat -> (z < w)%nat -> rsum Ci (fun k => G j [a; k; y; z]) = 0) /\
    rsum (List.length (cp_layers P)) (fun j => isum (shape (conv_logits P j)) (fun idx => Rabs (G j idx))) <= 2 * INR (conv_positions g H W).
Proof.
  intros V g C H W o0 P0 N x A0 HF Hx HN. destruct (accepted_conv_ok _ _ _ _ _ _ A0 HF) as (us & HP).
  assert (GR: forall n, conv_gradient g C H W P0 (cgG P0 x n) (cgl P0 x n)) by (intros n; eapply cgradient_holds; eauto).
  exists (cwG P0 N x), (cwl P0 N x). split; [|split; [|split]].
  - intros o P t0 dl dp st HC <-. rewrite <- cslopes_inner. unfold conv_loss.
    apply (dlim_ext t0 (fun t => - mean N (fun n => cloglik (P t) (st t) x n))).
    + intros t. pose proof (cv_accepted _ _ _ _ _ _ _ _ _ HC t) as At. pose proof (images_at g C H W o P t0 dl dp HC N x Hx t) as Hxt.
      pose proof (proj1 (C78_loss V g C H W (o t) (P t) (st t) N x At HF Hxt) HN) as L. unfold loss_is in L. rewrite L. reflexivity.
    + apply (derivable_pt_lim_opp (fun t => mean N (fun n => cloglik (P t) (st t) x n))). apply (mean_diff t0 N (fun n t => cloglik (P t) (st t) x n)). intros n Hn. eapply cslope_holds; eauto.
  - intros j idx Hi. unfold cwG. rewrite Rabs_Ropp. apply mean_le; auto. intros n _. apply (cgr_le _ _ _ _ _ _ _ (GR n)); auto.
  - intros j Co Ci h w a y z Es Ha Hy Hz. unfold cwG.
    rewrite (rsum_ext Ci _ (fun k => (-1) * mean N (fun n => cgG P0 x n j [a; k; y; z]))) by (intros; ring).
    rewrite rsum_scal_l, <- (mean_rsum N Ci (fun n k => cgG P0 x n j [a; k; y; z])). unfold mean. rewrite (rsum_ext N _ (fun _ => 0)).
    + rewrite rsum_zero. unfold Rdiv. ring.
    + intros n _. pose proof (cgr_zero _ _ _ _ _ _ _ (GR n) j) as Z. rewrite Es in Z. apply Z; auto.
  - apply Rle_trans with (mean N (fun n => rsum (List.length (cp_layers P0)) (fun j => isum (shape (conv_logits P0 j)) (fun idx => Rabs (cgG P0 x n j idx))))).
    + rewrite (mean_rsum N _ (fun n j => isum (shape (conv_logits P0 j)) (fun idx => Rabs (cgG P0 x n j idx)))). apply rsum_le. intros j _.
      rewrite (mean_isum N _ (fun n idx => Rabs (cgG P0 x n j idx))). apply isum_le. intros idx _. unfold cwG. rewrite Rabs_Ropp. apply mean_abs; auto.
    + rewrite <- (mean_const N (2 * INR (conv_positions g H W)) HN). apply mean_mono; auto. intros n _. apply (cgr_total _ _ _ _ _ _ _ (GR n)).
Qed.
Print Assumptions C89_gradient.

(** * Descent *)
(** Leaves that move differentiably with the step size, starting at [lf0] (one repetition) *)
Definition conv_path {V} (lf0 : bleaf V) (lfs : R -> bleaf V) (dp : nat -> nat -> nat -> V -> R) : Prop := leaf_path lf0 lfs (fun c f l _ => dp c f l).
Section Path.
Context {V : Type} (g : cconfig) (C H W : nat) (o : coracle V) (P : convpc V).
Hypothesis (A : conv_accepted g C H W o P) (HF : conv_fits g H W).
Lemma cfrozen_leaf : conv_path (cp_leaf P) (fun _ => cp_leaf P) (fun _ _ _ _ => 0).
Proof.
  split; auto.
  - intros _. eapply conv_leaf_size; eauto.
  - intros. apply derivable_pt_lim_const.
Qed.
Lemma conv_finite j idx : inb (shape (conv_logits P j)) idx -> isfin (get (conv_logits P j) idx) = true.
Proof.
  destruct (accepted_conv_ok _ _ _ _ _ _ A HF) as (us & HP). rewrite conv_logits_at. generalize (co_clays _ _ HP). generalize (cp_L P) (cp_H P) (cp_W P) us (cp_layers P). intros S0 H0 W0 us0 ls X. revert j.
  induction X as [S1 H1 W1|l0 ls S1 H1 W1 us1 S2 H2 W2 us2 S3 H3 W3 C1 C2 IH]; intros [|j]; cbn [nth_error]; try (intros Hi; destruct idx as [|? [|]]; cbn in Hi; try tauto; lia); [|apply IH].
  destruct C1 as [s ? ? ? Hs|? ? ? ? ? ? ? ?|s ? ? ? ? ? ? ? Hs ?|s ? ? ? ? ? ? ? ? Hs]; unfold cl_logits; cbn [cl_sum]; try (destruct Hs as (_ & _ & _ & _ & _ & (Q4 & Q5)); rewrite Q4; intros Hi; apply Q5; auto).
  intros Hi. destruct idx as [|? [|]]; cbn in Hi; try tauto; lia.
Qed.
Lemma step_clays_at ls d : forall j k, nth_error (step_clays k ls d) j = option_map (fun l => step_clay l (d (k + j)%nat)) (nth_error ls j).
Proof.
  induction ls as [|l ls IH]; intros j k; destruct j as [|j]; cbn [step_clays nth_error option_map]; auto; [rewrite Nat.add_0_r; reflexivity|]. rewrite IH. replace (S k + j)%nat with (k + S j)%nat by lia. reflexivity.
Qed.
Lemma step_conv_logits d lf j idx : inb (shape (conv_logits P j)) idx -> toR (get (conv_logits (step_conv P d lf) j) idx) = toR (get (conv_logits P j) idx) + d j idx.
Proof.
  intros Hi. pose proof (conv_finite j idx Hi) as F. unfold conv_logits in *. change (cp_layers (step_conv P d lf)) with (step_clays 0 (cp_layers P) d). rewrite step_clays_at, Nat.add_0_l.
  destruct (nth_error (cp_layers P) j) as [[s|kh kw|oo s kh kw]|]; cbn [option_map step_clay step_csum cs_logits add_to get] in *; try (destruct (get (cs_logits s) idx); try discriminate F; reflexivity);
    exfalso; destruct idx as [|? [|]]; cbn in Hi; try tauto; lia.
Qed.
Lemma step_conv_zero d : (forall j idx, d j idx = 0) -> step_conv P d (cp_leaf P) = P.
Proof.
  clear A HF. intros Hd. unfold step_conv. assert (LS: forall ls j, step_clays j ls d = ls).
  { induction ls as [|l ls IH]; intros j; cbn [step_clays]; auto. rewrite IH. f_equal. destruct l; cbn [step_clay]; auto; unfold step_csum; rewrite add_zero by auto; [destruct s|destruct s]; reflexivity. }
  rewrite LS. destruct P; reflexivity.
Qed.
Definition cline (d : nat -> list nat -> R) (lfs : R -> bleaf V) (t : R) : convpc V := step_conv P (fun j idx => t * d j idx) (lfs t).
Lemma cline_start d lfs dp : conv_path (cp_leaf P) lfs dp -> cline d lfs 0 = P.
Proof. intros HP. unfold cline. rewrite (lp_start _ _ _ HP). apply step_conv_zero. intros; ring. Qed.
Lemma cline_curve d lfs dp : conv_path (cp_leaf P) lfs dp -> conv_curve g C H W (fun t => conv_moved g o (fun j idx => t * d j idx) (lfs t)) (cline d lfs) 0 d dp.
Proof.
  intros HP. assert (LIN: forall a w, derivable_pt_lim (fun t => a + t * w) 0 w).
  { intros a w. apply (dlim_eq 0 _ (0 + (1 * w + 0 * 0))); [ring|]. apply (derivable_pt_lim_plus (fun _ => a) (fun t => t * w)); [apply derivable_pt_lim_const|].
    apply (derivable_pt_lim_mult (fun t => t) (fun _ => w)); [apply derivable_pt_lim_id|apply derivable_pt_lim_const]. }
  destruct (build_conv_inv _ _ _ _ _ _ A) as (c0 & rest & _ & _ & _ & _ & E4 & El & _). destruct (cor_leaf _ (cac_oracle _ _ _ _ _ _ A) _ _ _ _ _ El) as (_ & F1 & F2 & F3 & F4 & _).
  pose proof (cline_start d lfs dp HP) as E0. split; auto.
  - intros t. apply conv_moved_ok; auto. apply (lp_size _ _ _ HP).
  - rewrite E0. intros j idx Hi. apply (dlim_ext 0 (fun t => toR (get (conv_logits P j) idx) + t * d j idx)); [|apply LIN]. intros t. unfold cline. rewrite step_conv_logits; auto.
  - intros t v. rewrite E0. apply (lp_supp _ _ _ HP).
  - rewrite E0. intros c f l v H1 H2 H3 H4. apply (lp_diff _ _ _ HP c f l 0%nat v); auto; rewrite ?F1, ?F2, ?F3, ?F4; try lia.
Qed.
End Path.
(** Every direction in which the loss falls to first order: all sufficiently short steps lower it. *)
Theorem C89_descent : forall V g C H W (o : coracle V) P N x G Gl d lfs dp st, conv_accepted g C H W o P -> conv_fits g H W -> is_cgradient g C H W P N x G Gl ->
  conv_path (cp_leaf P) lfs dp -> cinner C H W P N x G Gl d dp < 0 ->
  exists eta, 0 < eta /\ forall t, 0 < t < eta -> conv_loss (step_conv P (fun j idx => t * d j idx) (lfs t)) st x < conv_loss P st x.
Proof.
  intros V g C H W o P N x G Gl d lfs dp st A HF HG HP HI. pose proof (HG _ _ _ _ _ (fun _ => st) (cline_curve g C H W o P A HF d lfs dp HP) (cline_start P d lfs dp HP)) as HD.
  destruct (descent_lemma _ _ HD HI) as (e & He & Hd). exists e. split; auto. intros t Ht. specialize (Hd t Ht). cbv beta in Hd. rewrite (cline_start P d lfs dp HP) in Hd. exact Hd.
Qed.
Print Assumptions C89_descent.
Definition cnot_stationary {V} (P : convpc V) (G : nat -> list nat -> R) : Prop := exists j idx, (j < List.length (cp_layers P))%nat /\ inb (shape (conv_logits P j)) idx /\ G j idx <> 0.
Lemma cagainst {V} C H W (P : convpc V) N x G Gl dp (s : R -> R) : (forall a, 0 <= a * s a) -> (forall a, a <> 0 -> 0 < a * s a) -> cnot_stationary P G -> cleaf_inner C H W P N x Gl dp <= 0 ->
  cinner C H W P N x G Gl (fun j idx => - s (G j idx)) dp < 0.
Proof.
  intros H1 H2 (j & idx & Hj & Hi & Hne) HL. unfold cinner.
  assert (Q: 0 < rsum (List.length (cp_layers P)) (fun j => isum (shape (conv_logits P j)) (fun idx => G j idx * s (G j idx)))).
  { eapply Rlt_le_trans; [|apply (rsum_term_le _ (fun j => isum (shape (conv_logits P j)) (fun idx => G j idx * s (G j idx))) j Hj)].
    - apply (isum_pos _ (fun idx => G j idx * s (G j idx)) idx); auto.
    - intros; apply isum_nonneg; auto. }
  rewrite (rsum_ext _ _ (fun j => (-1) * isum (shape (conv_logits P j)) (fun idx => G j idx * s (G j idx)))) by (intros; rewrite <- isum_scal; apply isum_ext; intros; ring).
  rewrite rsum_scal_l. lra.
Qed.
(** Gradient descent and the first step of Adam with a small learning rate lower the loss of the batch unless all partial derivatives of
    logits are zero; the leaves may stay or move in a direction that does not raise the loss. *)
Theorem C89_first_step : forall V h g C H W (o : coracle V) P N x G Gl lfs dp st, hyper_ok h -> conv_accepted g C H W o P -> conv_fits g H W -> is_cgradient g C H W P N x G Gl ->
  conv_path (cp_leaf P) lfs dp -> cleaf_inner C H W P N x Gl dp <= 0 -> cnot_stationary P G ->
  exists eta, 0 < eta /\ forall lr, 0 < lr < eta ->
    conv_loss (step_conv P (fun j idx => lr * - G j idx) (lfs lr)) st x < conv_loss P st x /\
    conv_loss (ct_net (conv_run h P [mkCst lr G (lfs lr)])) st x < conv_loss P st x.
Proof.
  intros V h g C H W o P N x G Gl lfs dp st Hh A HF HG HP HL HN. pose proof (ho_eps h Hh) as He.
  destruct (C89_descent V g C H W o P N x G Gl (fun j idx => - G j idx) lfs dp st A HF HG HP) as (e1 & P1 & H1).
  { apply (cagainst C H W P N x G Gl dp (fun a => a)); auto; intros a; [|intros Ha]; nra. }
  set (s := fun a => a / (Rabs a + hy_eps h)).
  destruct (C89_descent V g C H W o P N x G Gl (fun j idx => - s (G j idx)) lfs dp st A HF HG HP) as (e2 & P2 & H2).
  { assert (SA: forall a, a * s a = (a * a) * / (Rabs a + hy_eps h)) by (intros; unfold s, Rdiv; ring).
    assert (SP: forall a, 0 < / (Rabs a + hy_eps h)) by (intros a; apply Rinv_0_lt_compat; pose proof (Rabs_pos a); lra).
    apply (cagainst C H W P N x G Gl dp s); auto; intros a; rewrite SA; specialize (SP a).
    - apply Rmult_le_pos; [apply Rle_0_sqr|lra].
    - intros Ha. apply Rmult_lt_0_compat; auto. nra. }
  exists (Rmin e1 e2). split; [apply Rmin_pos; auto|]. intros lr (L1 & L2). pose proof (Rmin_l e1 e2). pose proof (Rmin_r e1 e2). split; [apply H1; lra|].
  assert (EQ: ct_net (conv_run h P [mkCst lr G (lfs lr)]) = step_conv P (fun j idx => lr * - s (G j idx)) (lfs lr)).
  { unfold conv_run. cbn [fold_left cst_lr cst_G cst_leaf]. unfold adam_conv. cbn [ct_net ct_start ct_mom].
    assert (FC: forall a, adam_change h lr (adam_moments h fresh a) = lr * - s a) by (intros a; rewrite first_change by auto; unfold s, Rdiv; ring).
    f_equal. apply functional_extensionality; intros j. apply functional_extensionality; intros idx; apply FC. }
  rewrite EQ. apply H2. lra.
Qed.
Print Assumptions C89_first_step.

(** ** Concrete case: images of two pixels, a sum of two products of coins whose first component has a different bias *)
Definition sc_g : cconfig := mkCC [2]%nat 2 CBottomUp OSumProd.
Definition sc_o : coracle nat := mkCO (fun F C L Rn => if (0 <? F) && (0 <? C) && (0 <? L) && (0 <? Rn) then Ok (coin st_p F C L Rn) else Err ValueErr)%nat (fun _ s => mkT s (fun _ => Fin 0)).
Definition sc_s : csum := mkCS 2 1 1 1 (mkT [1; 2; 1; 1]%nat (fun _ => Fin 0)).
Definition sc_P : convpc nat := mkCP 1 1 2 2 (coin st_p 2 1 2 1) [CSumProd OProdSum sc_s 1 2].
Definition sc_x : tensor (option nat) := mkT [3; 1; 1; 2]%nat (fun _ => Some 0%nat).
Lemma sc_accepted : conv_accepted sc_g 1 1 2 sc_o sc_P.
Proof.
  split; [|repeat constructor|reflexivity]. split.
  - intros F C L Rn lf E. cbn [sc_o ConvPc.co_leaf] in E. destruct (_ && _) eqn:Eb; [|discriminate]. injection E as <-.
    rewrite !andb_true_iff, !Nat.ltb_lt in Eb. repeat split; try tauto; apply coin_ok.
  - intros i s. split; [reflexivity|]. intros. reflexivity.
Qed.
Lemma sc_fits : conv_fits sc_g 1 2.
Proof. split; [cbn; lia|]. cbn [sc_g cc_struct cc_channels cc_order cc_kernel length]. split; [auto|]. split; [exists 1%nat|exists 2%nat]; reflexivity. Qed.
Lemma sc_images : images sc_P 3 sc_x.
Proof. split; [reflexivity|]. intros n c h w v _ _ _ _ [= <-]. reflexivity. Qed.
Definition sc_dir (j : nat) (idx : list nat) : R := only_logit 0 [0; 0; 0; 0]%nat j idx.
Definition sc_line (t : R) : convpc nat := cline sc_P sc_dir (fun _ => cp_leaf sc_P) t.
Lemma sc_curve : conv_curve sc_g 1 1 2 (fun t => conv_moved sc_g sc_o (fun j idx => t * sc_dir j idx) (cp_leaf sc_P)) sc_line 0 sc_dir (fun _ _ _ _ => 0).
Proof. apply (cline_curve sc_g 1 1 2 sc_o sc_P sc_accepted sc_fits sc_dir _ _ (cfrozen_leaf sc_g 1 1 2 sc_o sc_P sc_accepted)). Qed.
Lemma sc_start : sc_line 0 = sc_P.
Proof. apply (cline_start sc_P sc_dir _ _ (cfrozen_leaf sc_g 1 1 2 sc_o sc_P sc_accepted)). Qed.
Lemma sc_loss t st : conv_loss (sc_line t) st sc_x = - ln ((exp t / 16 + 9 / 16) / (exp t + 1)).
Proof.
  pose proof (cv_accepted _ _ _ _ _ _ _ _ _ sc_curve t) as A. assert (HX0: images (sc_line 0) 3 sc_x) by (rewrite sc_start; exact sc_images).
  pose proof (images_at sc_g 1 1 2 _ sc_line 0 _ _ sc_curve 3 sc_x HX0 t) as Hx.
  pose proof (proj1 (C78_loss nat sc_g 1 1 2 _ (sc_line t) st 3 sc_x A sc_fits Hx) ltac:(lia)) as L. unfold loss_is in L. unfold conv_loss. rewrite L. cbn [loss_value toR].
  assert (M: forall n, (n < 3)%nat -> cloglik (sc_line t) st sc_x n = ln ((exp t / 16 + 9 / 16) / (exp t + 1))).
  { intros n Hn. rewrite (cloglik_at sc_g 1 1 2 _ sc_line 0 _ _ sc_curve sc_fits 3 sc_x n HX0 Hn t st). f_equal.
    unfold neteval. change (nR (the_net (sc_line t))) with 1%nat. rewrite rsum_S, rsum_0. change (nmix (the_net (sc_line t)) 0 0) with 1.
    change (nls (the_net (sc_line t))) with [prod_u 2 1 2 1 2; csum_u (step_csum sc_s (fun idx => t * sc_dir 0 idx)) 1].
    set (v := leafval (the_net (sc_line t)) (cq sc_x n (sc_line t))).
    assert (LV: forall d l, (d < 2)%nat -> (l < 2)%nat -> v d l 0%nat = if (l =? 0)%nat then 1 / 4 else 3 / 4).
    { intros d l Hd Hl. unfold v, leafval. change (nF (the_net (sc_line t))) with 2%nat. change (nC (the_net (sc_line t))) with 1%nat. rewrite !rprod_S, !rprod_0.
      change (ngroup (the_net (sc_line t)) 0 0) with 0%nat. change (ngroup (the_net (sc_line t)) 0 1) with 1%nat.
      assert (Q: forall f, cq sc_x n (sc_line t) 0%nat f l 0%nat = st_p [0; f; l; 0]%nat).
      { intros f. unfold cq, lval. change (image (sc_line t) sc_x n 0%nat f) with (Some 0%nat). unfold pdf. change (cp_leaf (sc_line t)) with (coin st_p 2 1 2 1). cbn [coin lf_logp Nat.eqb toR]. apply exp_ln.
        destruct l as [|[|l]]; cbn; lra. }
      rewrite !Q. destruct d as [|[|d]]; [| |lia]; destruct l as [|[|l]]; try lia; cbn [st_p Nat.eqb]; lra. }
    set (U := csum_u _ _). set (Q := prod_u _ _ _ _ _).
    change (evals [Q; U] v 0%nat 0%nat 0%nat) with (ueval U (fun d o r => ueval Q v d o r) 0%nat 0%nat 0%nat).
    assert (PV: forall k, (k < 2)%nat -> ueval Q v 0%nat k 0%nat = if (k =? 0)%nat then 1 / 16 else 9 / 16).
    { intros k Hk. unfold ueval, uprod, Q. cbn [prod_u uK uW ukids usel]. rewrite rsum_S, rsum_0. change (block 2 1 2 0) with [0; 1]%nat. cbn [lprod map fold_right]. rewrite !LV by lia.
      destruct (k =? 0)%nat; lra. }
    unfold ueval at 1, uprod, U. cbn [csum_u uK uW ukids usel step_csum sc_s cs_in lprod map fold_right]. rewrite !rsum_S, rsum_0. rewrite !PV by lia. cbn [Nat.eqb].
    assert (Wt: forall k, (k < 2)%nat -> csum_w (step_csum sc_s (fun idx => t * sc_dir 0 idx)) 1 0 0 0 k = (if (k =? 0)%nat then exp t else 1) / (exp t + 1)).
    { intros k Hk. unfold csum_w, wsoft, rsoftmax. change (cs_in (step_csum sc_s (fun idx => t * sc_dir 0 idx))) with 2%nat. change (cs_w (step_csum sc_s (fun idx => t * sc_dir 0 idx))) with 1%nat.
      change (0 / 1)%nat with 0%nat. change (0 mod 1)%nat with 0%nat. rewrite !rsum_S, rsum_0.
      assert (LG: forall i, (i < 2)%nat -> exp (toR (get (cs_logits (step_csum sc_s (fun idx => t * sc_dir 0 idx))) [0; i; 0; 0]%nat) / 1) = if (i =? 0)%nat then exp t else 1).
      { intros i Hi. cbn [step_csum cs_logits add_to get sc_s nadd toR]. unfold sc_dir, only_logit. cbn [Nat.eqb]. destruct i as [|[|i]]; [| |lia].
        - destruct (list_eq_dec Nat.eq_dec _ _) as [_|X]; [|congruence]. cbn [Nat.eqb]. f_equal. field.
        - destruct (list_eq_dec Nat.eq_dec _ _) as [X|_]; [discriminate X|]. cbn [Nat.eqb]. transitivity (exp 0); [f_equal; field|apply exp_0]. }
      rewrite !LG by lia. cbn [Nat.eqb]. f_equal. ring. }
    change (mkCS 2 (cs_out sc_s) (cs_h sc_s) (cs_w sc_s) (add_to (cs_logits sc_s) (fun idx => t * sc_dir 0 idx))) with (step_csum sc_s (fun idx => t * sc_dir 0 idx)).
    rewrite !Wt by lia. cbn [Nat.eqb]. pose proof (exp_pos t). field. lra. }
  unfold mean. rewrite !rsum_S, rsum_0, !M by lia. cbn [INR]. field.
Qed.
Lemma sc_no_leaf (P : convpc nat) N x Gl : cleaf_inner 1 1 2 P N x Gl (fun _ _ _ _ => 0) = 0.
Proof.
  unfold cleaf_inner. rewrite (rsum_ext _ _ (fun _ => 0)); [apply rsum_zero|]. intros n _. rewrite (rsum_ext _ _ (fun _ => 0)); [apply rsum_zero|]. intros c _.
  rewrite (rsum_ext _ _ (fun _ => 0)); [apply rsum_zero|]. intros h _. rewrite (rsum_ext _ _ (fun _ => 0)); [apply rsum_zero|]. intros w _. destruct (get x [n; c; h; w]); auto.
  rewrite (rsum_ext _ _ (fun _ => 0)); [apply rsum_zero|]. intros; ring.
Qed.
Lemma sc_falls G Gl : is_cgradient sc_g 1 1 2 sc_P 3 sc_x G Gl -> G 0%nat [0; 0; 0; 0]%nat = 2 / 5.
Proof.
  intros HG. pose proof (HG _ _ _ _ _ (fun _ => fresh_state sc_P) sc_curve sc_start) as HD. cbv beta in HD.
  assert (I: cinner 1 1 2 sc_P 3 sc_x G Gl sc_dir (fun _ _ _ _ => 0) = G 0%nat [0; 0; 0; 0]%nat).
  { unfold cinner. rewrite sc_no_leaf. change (List.length (cp_layers sc_P)) with 1%nat. rewrite rsum_S, rsum_0. change (shape (conv_logits sc_P 0)) with [1; 2; 1; 1]%nat.
    cbn [isum]. rewrite !rsum_S, !rsum_0. unfold sc_dir, only_logit. cbn [Nat.eqb].
    destruct (list_eq_dec Nat.eq_dec [0; 0; 0; 0]%nat [0; 0; 0; 0]%nat) as [_|X]; [|congruence]. destruct (list_eq_dec Nat.eq_dec [0; 1; 0; 0]%nat [0; 0; 0; 0]%nat) as [X|_]; [discriminate X|]. ring. }
  rewrite I in HD. apply (uniqueness_limite _ _ _ _ HD).
  apply (dlim_ext 0 (fun t => - ln ((exp t / 16 + 9 / 16) / (exp t + 1)))); [intros t; symmetry; apply sc_loss|].
  apply (dlim_ext 0 (fun t => - (ln (exp t + 9) + - ln (exp t + 1) + - ln 16))).
  { intros t. f_equal. pose proof (exp_pos t). replace ((exp t / 16 + 9 / 16) / (exp t + 1)) with ((exp t + 9) * / (exp t + 1) * / 16) by (field; lra).
    rewrite !ln_mult, !ln_Rinv; try lra; try (apply Rinv_0_lt_compat; lra). apply Rmult_lt_0_compat; [lra|apply Rinv_0_lt_compat; lra]. }
  assert (DE: forall a, 0 < a -> derivable_pt_lim (fun t => ln (exp t + a)) 0 (/ (1 + a))).
  { intros a Ha. eapply dlim_eq; [|apply (derivable_pt_lim_comp (fun t => exp t + a) ln 0 (1 + 0) (/ (exp 0 + a)))].
    - rewrite exp_0. ring.
    - apply (derivable_pt_lim_plus exp (fun _ => a)); [|apply derivable_pt_lim_const]. eapply dlim_eq; [apply exp_0|apply derivable_pt_lim_exp].
    - apply derivable_pt_lim_ln. pose proof (exp_pos 0). lra. }
  eapply dlim_eq; [|apply (derivable_pt_lim_opp (fun t => ln (exp t + 9) + - ln (exp t + 1) + - ln 16));
    apply (derivable_pt_lim_plus (fun t => ln (exp t + 9) + - ln (exp t + 1)) (fun _ => - ln 16)); [|apply derivable_pt_lim_const];
    apply (derivable_pt_lim_plus (fun t => ln (exp t + 9)) (fun t => - ln (exp t + 1))); [apply DE; lra|apply (derivable_pt_lim_opp (fun t => ln (exp t + 1))); apply DE; lra]].
  field.
Qed.
Example C89_ex : exists G eta, G 0%nat [0; 0; 0; 0]%nat = 2 / 5 /\ 0 < eta /\ forall lr, 0 < lr < eta ->
  conv_loss (ct_net (conv_run adam_defaults sc_P [mkCst lr G (cp_leaf sc_P)])) (fresh_state sc_P) sc_x < conv_loss sc_P (fresh_state sc_P) sc_x.
Proof.
  destruct (C89_gradient nat sc_g 1 1 2 sc_o sc_P 3 sc_x sc_accepted sc_fits sc_images ltac:(lia)) as (G & Gl & HG & _). exists G. pose proof (sc_falls G Gl HG) as EG.
  destruct (C89_first_step nat adam_defaults sc_g 1 1 2 sc_o sc_P 3 sc_x G Gl _ _ (fresh_state sc_P) (proj1 C81_defaults) sc_accepted sc_fits HG (cfrozen_leaf sc_g 1 1 2 sc_o sc_P sc_accepted)) as (eta & He & Hs).
  - rewrite sc_no_leaf. lra.
  - exists 0%nat, [0; 0; 0; 0]%nat. split; [cbn; lia|]. split; [cbn; lia|]. rewrite EG. lra.
  - exists eta. split; auto. split; auto. intros lr Hlr. apply Hs; auto.
Qed.
(** Runs on images of 3 channels of 4 x 8 pixels with sums at 32 + 8 + 1 positions *)
Example C89_run_ex : forall G, let P := ex_conv third grow in let steps := [mkCst (1 / 10) G (cp_leaf P); mkCst (1 / 10) (fun _ _ => 5) (cp_leaf P); mkCst (1 / 100) G (cp_leaf P)] in
  conv_accepted cex_bottom 3 4 8 (ex_conv_o third grow) P /\ Forall (conv_step_ok (cp_leaf P)) steps /\
  forall st, exists y y', snd (conv_forward P st ex_imgs) = Ok y /\ snd (conv_forward (ct_net (conv_run adam_defaults P steps)) st ex_imgs) = Ok y' /\
    Rabs (toR (get y [3]%nat) - toR (get y' [3]%nat)) <= 2 * (21 / 100 * reach adam_defaults) * INR 41.
Proof.
  intros G P steps. assert (A: conv_accepted cex_bottom 3 4 8 (ex_conv_o third grow) P) by (apply ex_conv_accepted; intros; reflexivity). split; auto.
  pose proof (conv_leaf_size _ _ _ _ _ _ A) as SZ.
  assert (F: Forall (conv_step_ok (cp_leaf P)) steps) by (do 3 (apply Forall_cons; [split; [cbn; lra|exact SZ]|]); constructor). split; auto. intros st.
  destruct (C89_drift nat adam_defaults cex_bottom 3 4 8 _ P steps 0 st st 5 ex_imgs (proj1 C81_defaults) A dex_fits F) as (y & y' & E1 & E2 & B).
  - split; auto. intros. cbn [steps conv_last_leaf fold_left cst_leaf]. unfold Rminus. rewrite Rplus_opp_r, Rabs_R0. lra.
  - apply ex_imgs_ok.
  - exists y, y'. split; auto. split; auto. destruct (B 3%nat ltac:(lia)) as (_ & _ & B3). change (conv_positions cex_bottom 4 8) with 41%nat in B3.
    replace (conv_rate steps) with (21 / 100) in B3 by (unfold conv_rate; cbn; lra). lra.
Qed.
