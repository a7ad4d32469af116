(** C75, C76: convolutional circuits over leaves of any kind. *)
From Coq Require Import List Arith Lia Bool Reals Lra.
Import ListNotations.
From Verif Require Import Base RSum Num Tensor Prob Layers Circuit Net RefFwd Leaf RefLeaf TypeChecks Einet RefEinet Spec RefSpec Family RefFamily ConvPc RefConv RefConvNet RefConvS PropConv
  Density RefDensity Gauss Integral PropDensity RefConvD RefTrees PropTrees.
Local Open Scope R_scope.
Local Arguments Nat.div : simpl never. Local Arguments Nat.modulo : simpl never. Local Arguments Nat.sub : simpl never.
Local Arguments Nat.mul : simpl never. Local Arguments Nat.add : simpl never.

(** * C75: densities *)
(** A missing pixel is integrated out, each channel and pixel with its own integral. *)
Theorem C75_marginal : forall V g C H W (o : coracle V) P Int st N x n ps,
  conv_accepted g C H W o P -> conv_fits g H W -> density_leaf Int (cp_leaf P) -> images P N x -> (n < N)%nat ->
  missing C (H * W) (nth_image W x n) ps ->
  integrates Int (fun z => clik P st (image_tensor C H W z) 0) ps (nth_image W x n) (clik P st x n).
Proof.
  intros V g C H W o P Int st N x n ps HA HF HD Hx Hn Hm. destruct (accepted_conv_ok _ _ _ _ _ _ HA HF) as (us & HP).
  destruct (build_conv_inv _ _ _ _ _ _ HA) as (c0 & rest & _ & <- & <- & <- & _). eapply clik_integral; eauto.
Qed.
Print Assumptions C75_marginal.
Theorem C75_normalized : forall V g C H W (o : coracle V) P Int st ps,
  conv_accepted g C H W o P -> conv_fits g H W -> density_leaf Int (cp_leaf P) -> missing C (H * W) (fun _ _ => @None V) ps ->
  integrates Int (fun z => clik P st (image_tensor C H W z) 0) ps (fun _ _ => None) 1.
Proof.
  intros V g C H W o P Int st ps HA HF HD Hm. destruct (accepted_conv_ok _ _ _ _ _ _ HA HF) as (us & HP).
  set (x := mkT [1; C; H; W]%nat (fun _ => @None V)).
  assert (Hx: images P 1 x).
  { destruct (build_conv_inv _ _ _ _ _ _ HA) as (c0 & rest & _ & <- & <- & <- & _). split; [reflexivity|intros; discriminate]. }
  assert (E: clik P st x 0 = 1).
  { rewrite (clik_eval' P us HP st 1) by auto. apply neteval_one; [apply conv_net_wf; exact HP|cbn; lia|intros c f l r _ _ _ _; reflexivity]. }
  rewrite <- E. apply (C75_marginal V g C H W o P Int st 1 x 0 ps); auto.
Qed.
Print Assumptions C75_normalized.
Theorem C75_unique : forall V g C H W (o : coracle V) P Int st N x n ps a,
  conv_accepted g C H W o P -> conv_fits g H W -> density_leaf Int (cp_leaf P) -> images P N x -> (n < N)%nat ->
  missing C (H * W) (nth_image W x n) ps ->
  integrates Int (fun z => clik P st (image_tensor C H W z) 0) ps (nth_image W x n) a -> a = clik P st x n.
Proof.
  intros V g C H W o P Int st N x n ps a HA HF HD Hx Hn Hm Ha.
  apply (integrates_unique Int (fun z => clik P st (image_tensor C H W z) 0) ps) with (z := nth_image W x n); auto.
  - intros c f Hin. apply Hm in Hin as (Hc & Hf & _). destruct (accepted_conv_ok _ _ _ _ _ _ HA HF) as (us & HP).
    destruct (build_conv_inv _ _ _ _ _ _ HA) as (c0 & rest & _ & <- & <- & <- & _). eapply clin; eauto.
  - apply (C75_marginal V g C H W o P Int st N x n ps); auto.
Qed.
Print Assumptions C75_unique.
(** Samples: images drawn independently from that density, in terms of one test function per channel and pixel. *)
Theorem C75_samples : forall V g C H W (o : coracle V) P Int EL val st N (h : nat -> nat -> nat -> num -> R) ps,
  conv_accepted g C H W o P -> conv_fits g H W -> density_leaf Int (cp_leaf P) -> lf_ctx (cp_leaf P) = true -> leaf_expectation EL -> st_on st = false ->
  missing C (H * W) (fun _ _ => @None V) ps -> (forall n c f x, 0 <= h n c f x) ->
  (forall n c f, (n < N)%nat -> (c < C)%nat -> (f < H * W)%nat -> leaf_law Int (cp_leaf P) EL c f (fun v => h n c f (Fin (val v)))) ->
  exists I, (forall n, (n < N)%nat ->
      integrates Int (fun z => clik P st (image_tensor C H W z) 0 * tests C (H * W) (fun c f v => h n c f (Fin (val v))) z) ps (fun _ _ => None) (I n)) /\
    expect EL (snd (conv_sample P val st (draw_images N)))
      (fun t => rprod N (fun n => rprod C (fun c => rprod (H * W) (fun f => h n c f (get t [n; c; f / W; f mod W]%nat))))) = rprod N I.
Proof.
  intros V g C H W o P Int EL val st N h ps HA HF HD Hctx HEL Hst Hm Hh HL. destruct (accepted_conv_ok _ _ _ _ _ _ HA HF) as (us & HP).
  destruct (build_conv_inv _ _ _ _ _ _ HA) as (c0 & rest & _ & <- & <- & <- & _). apply (conv_sample_tests P us HP Int HD val Hctx EL st N h ps); auto.
Qed.
Print Assumptions C75_samples.
(** Normal leaves: the density integrates to one over all images, and boxes have the probability the density gives them. *)
Theorem C75_normal : forall g C H W (o : coracle R) P means logvar st ps,
  conv_accepted g C H W o P -> conv_fits g H W -> cp_leaf P = normal_leaf (H * W) C (cp_L P) 1 means logvar ->
  missing C (H * W) (fun _ _ => @None R) ps ->
  integrates (fun _ _ => improper) (fun z => clik P st (image_tensor C H W z) 0) ps (fun _ _ => None) 1.
Proof. intros g C H W o P means logvar st ps HA HF HL Hm. apply (C75_normalized R g C H W o P); auto. rewrite HL. apply normal_density. Qed.
Print Assumptions C75_normal.
Definition num_between (a b : R) (x : num) : R := match x with Fin r => between a b r | _ => 0 end.
Theorem C75_normal_boxes : forall g C H W (o : coracle R) P means logvar EL st N lo hi ps,
  conv_accepted g C H W o P -> conv_fits g H W -> cp_leaf P = normal_leaf (H * W) C (cp_L P) 1 means logvar -> leaf_expectation EL ->
  (forall key u v, u <= v -> EL key (between u v) =
     normal_cdf (means key) (normal_sigma (logvar key)) v - normal_cdf (means key) (normal_sigma (logvar key)) u) ->
  st_on st = false -> missing C (H * W) (fun _ _ => @None R) ps -> (forall n c f : nat, lo n c f <= hi n c f) ->
  exists I, (forall n, (n < N)%nat ->
      integrates (fun _ _ => improper) (fun z => clik P st (image_tensor C H W z) 0 *
        tests C (H * W) (fun c f => between (lo n c f) (hi n c f)) z) ps (fun _ _ => None) (I n)) /\
    expect EL (snd (conv_sample P (fun v => v) st (draw_images N)))
      (fun t => rprod N (fun n => rprod C (fun c => rprod (H * W) (fun f => num_between (lo n c f) (hi n c f) (get t [n; c; f / W; f mod W]%nat))))) = rprod N I.
Proof.
  intros g C H W o P means logvar EL st N lo hi ps HA HF HL HEL HB Hst Hm Hle.
  apply (C75_samples R g C H W o P (fun _ _ => improper) EL (fun v => v) st N (fun n c f => num_between (lo n c f) (hi n c f)) ps); auto.
  - rewrite HL. apply normal_density.
  - rewrite HL. reflexivity.
  - intros n c f x. destruct x; cbn [num_between]; try lra. apply between_nonneg.
  - intros n c f _ _ _. split; [intros; apply between_nonneg|]. intros l r _ _. change (fun v => num_between (lo n c f) (hi n c f) (Fin v)) with (fun v => between (lo n c f) (hi n c f) v).
    change (fun v => between (lo n c f) (hi n c f) v) with (between (lo n c f) (hi n c f)). rewrite HB by auto. rewrite HL.
    apply (li_ext _ improper_linear (fun x => normal_pdf (means [c; f; l; r]) (normal_sigma (logvar [c; f; l; r])) x * between (lo n c f) (hi n c f) x)).
    + intros x. f_equal. symmetry. apply normal_lp_pdf. apply exp_pos.
    + apply normal_between; auto. apply exp_pos.
Qed.
Print Assumptions C75_normal_boxes.

(** * C76: mixtures of products *)
(** A component picks one leaf per pixel. *)
Record pixel_leaves : Type := mkPL { pl_w : R; pl_leaf : nat -> nat }.
Definition image_density {V} (P : convpc V) (x : tensor (option V)) (n : nat) (p : pixel_leaves) : R :=
  rprod (cp_C P) (fun c => rprod (cp_H P) (fun h => rprod (cp_W P) (fun w => match get x [n; c; h; w] with
    | Some v => exp (toR (lf_logp (cp_leaf P) [c; h * cp_W P + w; pl_leaf p (h * cp_W P + w); 0]%nat v))
    | None => 1 end))).
Record pixel_components {V} (P : convpc V) (ps : list pixel_leaves) : Prop := {
  pc_pos : forall p, In p ps -> 0 < pl_w p;
  pc_leaf : forall p f, In p ps -> (f < cp_H P * cp_W P)%nat -> (pl_leaf p f < cp_L P)%nat;
  pc_sum : lsum pl_w ps = 1 }.
Lemma rprod_swap n m (f : nat -> nat -> R) : rprod n (fun i => rprod m (f i)) = rprod m (fun j => rprod n (fun i => f i j)).
Proof.
  induction n as [|n IH]; [rewrite rprod_0; rewrite (rprod_ext _ _ (fun _ => 1)), rprod_one; auto; intros; apply rprod_0|].
  rewrite rprod_S, IH, <- rprod_mult. apply rprod_ext. intros j _. rewrite rprod_S. auto.
Qed.
Lemma rprod_cat a b f : rprod (a + b) f = rprod a f * rprod b (fun i => f (a + i)%nat).
Proof. induction b as [|b IH]; [rewrite Nat.add_0_r, rprod_0; ring|]. rewrite Nat.add_succ_r, !rprod_S, IH. ring. Qed.
Lemma rprod_flat H W (f : nat -> R) : rprod (H * W) f = rprod H (fun h => rprod W (fun w => f (h * W + w)%nat)).
Proof.
  induction H as [|H IH]; [rewrite Nat.mul_0_l, !rprod_0; auto|]. rewrite rprod_S, <- IH.
  replace (S H * W)%nat with (H * W + W)%nat by ring. apply rprod_cat.
Qed.
Theorem C76_mixture : forall V g C H W (o : coracle V) P, conv_accepted g C H W o P -> conv_fits g H W ->
  exists ps, pixel_components P ps /\ forall st N x n, images P N x -> (n < N)%nat ->
    clik P st x n = lsum (fun p => pl_w p * image_density P x n p) ps.
Proof.
  intros V g C H W o P HA HF. destruct (accepted_conv_ok _ _ _ _ _ _ HA HF) as (us & HP).
  pose proof (conv_net_wf P us HP 1) as HW. assert (H0: (0 < nCls (conv_net P us 1))%nat) by (cbn; lia).
  destruct (net_trees (conv_net P us 1) 0 HW H0) as (ps & Hps & Hq). pose proof (trees_one (conv_net P us 1) 0 ps HW H0 Hq) as H1.
  exists (map (fun p => mkPL (p_w p) (p_l p)) ps). split.
  - split.
    + intros p Hp. apply in_map_iff in Hp as (p' & <- & Hp). apply (Hps p' Hp).
    + intros p f Hp Hf. apply in_map_iff in Hp as (p' & <- & Hp). apply (Hps p' Hp); auto.
    + rewrite lsum_map. exact H1.
  - intros st N x n Hx Hn. rewrite (clik_eval' P us HP st N) by auto. rewrite Hq, lsum_map. apply lsum_ext. intros p Hp. cbn [pl_w]. f_equal.
    unfold image_density. rewrite rprod_swap. cbn [conv_net nC nF]. apply rprod_ext. intros c _. rewrite rprod_flat. apply rprod_ext. intros h Hh. apply rprod_ext. intros w Hw.
    unfold lval, image. rewrite flat_div, flat_mod by auto. cbn [pl_leaf]. destruct (Hps p Hp) as (_ & Hr & _). cbn [conv_net nR] in Hr.
    assert (p_r p = 0%nat) as -> by lia. reflexivity.
Qed.
Print Assumptions C76_mixture.

Definition sum_pixels {V} (P : convpc V) (x : tensor (option V)) (n : nat) (h : nat -> nat -> nat -> R) : R :=
  rsum (cp_C P) (fun c => rsum (cp_H P) (fun i => rsum (cp_W P) (fun j => match get x [n; c; i; j] with Some _ => h c i j | None => 0 end))).
Lemma image_exp {V} (P : convpc V) x n p : image_density P x n p =
  exp (rsum (cp_C P) (fun c => rsum (cp_H P) (fun h => rsum (cp_W P) (fun w => match get x [n; c; h; w] with
    | Some v => toR (lf_logp (cp_leaf P) [c; h * cp_W P + w; pl_leaf p (h * cp_W P + w); 0]%nat v) | None => 0 end)))).
Proof.
  unfold image_density. rewrite <- rprod_exp. apply rprod_ext. intros c _. rewrite <- rprod_exp. apply rprod_ext. intros h _.
  rewrite <- rprod_exp. apply rprod_ext. intros w _. destruct (get x [n; c; h; w]); auto. rewrite exp_0; auto.
Qed.
(** A log-likelihood lies between the sums of the smallest and of the largest leaf log-densities. *)
Theorem C76_bounds : forall V g C H W (o : coracle V) P st N x n lo hi, conv_accepted g C H W o P -> conv_fits g H W -> images P N x -> (n < N)%nat ->
  (forall c h w l v, (c < C)%nat -> (h < H)%nat -> (w < W)%nat -> (l < cp_L P)%nat -> get x [n; c; h; w] = Some v ->
    lo c h w <= toR (lf_logp (cp_leaf P) [c; h * W + w; l; 0]%nat v) <= hi c h w) ->
  exists y ll, snd (conv_forward P st x) = Ok y /\ get y [n] = Fin ll /\ sum_pixels P x n lo <= ll <= sum_pixels P x n hi.
Proof.
  intros V g C H W o P st N x n lo hi HA HF Hx Hn HB. destruct (C76_mixture V g C H W o P HA HF) as (ps & HP & Hps). specialize (Hps st N x n Hx Hn).
  destruct (C40_forward V g C H W o P st N x HA HF Hx) as (y & Ey & _ & Gy). destruct (Gy n Hn) as (ll & El). exists y, ll. split; auto. split; auto.
  destruct (build_conv_inv _ _ _ _ _ _ HA) as (c0 & rest & _ & <- & <- & <- & _).
  unfold clik in Hps. rewrite Ey, El in Hps. cbn [pval] in Hps.
  assert (B: forall p, In p ps -> exp (sum_pixels P x n lo) <= image_density P x n p <= exp (sum_pixels P x n hi)).
  { intros p Hp. rewrite image_exp. split; apply exp_mono; unfold sum_pixels; apply rsum_le; intros c Hc; apply rsum_le; intros h Hh; apply rsum_le; intros w Hw;
      (destruct (get x [n; c; h; w]) as [v|] eqn:Ev; [|lra]); apply (HB c h w _ v); auto; apply (pc_leaf _ _ HP); auto using flat_lt. }
  assert (Q: forall p, In p ps -> 0 < pl_w p) by apply (pc_pos _ _ HP).
  split; apply exp_mono_inv; rewrite Hps.
  - apply Rle_trans with (lsum (fun p => pl_w p * exp (sum_pixels P x n lo)) ps); [rewrite lsum_scal_r; change (fun a => pl_w a) with pl_w; rewrite (pc_sum _ _ HP); lra|].
    apply lsum_le. intros p Hp. specialize (B p Hp). specialize (Q p Hp). nra.
  - apply Rle_trans with (lsum (fun p => pl_w p * exp (sum_pixels P x n hi)) ps); [|rewrite lsum_scal_r; change (fun a => pl_w a) with pl_w; rewrite (pc_sum _ _ HP); lra].
    apply lsum_le. intros p Hp. specialize (B p Hp). specialize (Q p Hp). nra.
Qed.
Print Assumptions C76_bounds.

(** ** Concrete cases: 4 x 8 images with 2 channels over Normal leaves *)
Definition dex_oracle : coracle R :=
  mkCO (fun F C L Rn => if (0 <? F) && (0 <? C) && (0 <? L) && (0 <? Rn) then Ok (normal_leaf F C L Rn nmean nlogvar) else Err ValueErr)%nat
       (fun i s => mkT s (fun idx => Fin (INR (i + list_sum idx)))).
Lemma dex_oracle_ok : conv_oracle dex_oracle.
Proof.
  split.
  - intros F C L Rn lf E. cbn [dex_oracle ConvPc.co_leaf] in E. destruct (_ && _) eqn:Eb; [|discriminate]. injection E as <-.
    rewrite !andb_true_iff, !Nat.ltb_lt in Eb. split; [tauto|]. do 4 (split; [reflexivity|]). apply normal_leaf_ok.
  - intros i s. split; [reflexivity|]. intros. reflexivity.
Qed.
Definition dex_P : convpc R := unwrap (mkCP 0 0 0 0 (normal_leaf 0 0 0 0 nmean nlogvar) []) (build_convpc dex_oracle cex_bottom 2 4 8).
Lemma dex_accepted : conv_accepted cex_bottom 2 4 8 dex_oracle dex_P.
Proof. split; [apply dex_oracle_ok|repeat constructor|reflexivity]. Qed.
Lemma dex_fits : conv_fits cex_bottom 4 8.
Proof. split; [cbn; lia|]. cbn. split; [right; discriminate|]. split; [exists 1%nat|exists 2%nat]; reflexivity. Qed.
Example C75_ex st : integrates (fun _ _ => improper) (fun z => clik dex_P st (image_tensor 2 4 8 z) 0) (all_entries 2 (4 * 8)) (fun _ _ => None) 1.
Proof.
  apply (C75_normal cex_bottom 2 4 8 dex_oracle dex_P nmean nlogvar); [apply dex_accepted|apply dex_fits|reflexivity|apply all_entries_missing].
Qed.
(** The probability that three sampled images lie in given boxes *)
Example C75_boxes_ex : exists EL I, leaf_expectation EL /\ (forall n, (n < 3)%nat ->
      integrates (fun _ _ => improper) (fun z => clik dex_P (fresh_state dex_P) (image_tensor 2 4 8 z) 0 *
        tests 2 (4 * 8) (fun c f => between (INR n - 1) (INR n + INR (c + f))) z) (all_entries 2 (4 * 8)) (fun _ _ => None) (I n)) /\
    expect EL (snd (conv_sample dex_P (fun v => v) (fresh_state dex_P) (draw_images 3)))
      (fun t => rprod 3 (fun n => rprod 2 (fun c => rprod (4 * 8) (fun f => num_between (INR n - 1) (INR n + INR (c + f)) (get t [n; c; f / 8; f mod 8]%nat))))) = rprod 3 I.
Proof.
  set (p := fun key => normal_pdf (nmean key) (normal_sigma (nlogvar key))).
  assert (Q: leaf_expectation (the_integral p)) by (apply the_integral_ok; intros; apply normal_mass; apply exp_pos).
  exists (the_integral p).
  destruct (C75_normal_boxes cex_bottom 2 4 8 dex_oracle dex_P nmean nlogvar (the_integral p) (fresh_state dex_P) 3 (fun n _ _ => INR n - 1) (fun n c f => INR n + INR (c + f)) (all_entries 2 (4 * 8))) as (I & H1 & H2).
  - apply dex_accepted.
  - apply dex_fits.
  - reflexivity.
  - exact Q.
  - intros key u v Huv. apply the_integral_val. apply normal_between; auto. apply exp_pos.
  - reflexivity.
  - apply all_entries_missing.
  - intros n c f. pose proof (pos_INR (c + f)). lra.
  - exists I. split; auto.
Qed.
Definition dex_x : tensor (option R) := mkT [2; 2; 4; 8]%nat (fun idx => if (nth 3 idx 0 =? 3)%nat then None else Some (INR (nth 2 idx 0%nat))).
Example C76_ex : exists ps, images dex_P 2 dex_x /\ pixel_components dex_P ps /\ forall st n, (n < 2)%nat ->
  clik dex_P st dex_x n = lsum (fun p => pl_w p * image_density dex_P dex_x n p) ps.
Proof.
  destruct (C76_mixture R cex_bottom 2 4 8 dex_oracle dex_P dex_accepted dex_fits) as (ps & HP & H). exists ps.
  assert (Hx: images dex_P 2 dex_x) by (split; [reflexivity|intros; reflexivity]). split; auto. split; auto. intros st n Hn. apply (H st 2%nat); auto.
Qed.
