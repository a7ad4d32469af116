(** C83: training the parameters of the leaves. *)
From Coq Require Import List Arith Lia Bool ZArith Reals Lra FunctionalExtensionality.
Import ListNotations.
From Verif Require Import Base RSum Num Tensor Prob Layers Circuit Net RefFwd Leaf Perm RefLeaf TypeChecks Family RefFamily Einet RefNet RefEinet RefEinetS Build RefBuild
  Spec RefPost RefSpec RefPack Ex PropForward PropLeaf PropDensity PropTemper RefPerturb RefAlike RefGrad PropPerturb Train RefTrain PropTrain PropGrad Save Step RefStep PropStep LeafStep RefLeafStep.
Local Open Scope R_scope.

(** * Scores *)
(** The derivatives of a leaf's log-probability at [v] in its parameters: [score th v j] is the one in parameter [j], at every point [th]
    that is [smooth]. *)
Record scored {V} (fam : family V) (smooth : (nat -> R) -> Prop) (score : (nat -> R) -> V -> nat -> R) : Prop := {
  sc_size : forall th th', same_size (fam_leaf fam th) (fam_leaf fam th');
  sc_supp : forall th th' v, lf_supp (fam_leaf fam th) v = lf_supp (fam_leaf fam th') v;
  sc_diff : forall th w key v, smooth (th key) -> lf_supp (fam_leaf fam th) v = true ->
    derivable_pt_lim (fun t => toR (lf_logp (fam_leaf fam (fun key j => th key j + t * w key j)) key v)) 0 (rsum (fam_n fam) (fun j => score (th key) v j * w key j)) }.
(** Bernoulli: value minus probability, but nothing from the parameter ln (2^23 - 1) = 15.94... on, where clamp_probs cuts off *)
Definition bernoulli_score (th : nat -> R) (v j : nat) : R := if Rlt_dec (Rabs (th 0%nat)) (ln (2 ^ 23 - 1)) then INR v - rsigmoid (th 0%nat) else 0.
Definition binomial_score (n : nat) (th : nat -> R) (v j : nat) : R := if Rlt_dec (Rabs (th 0%nat)) (ln (2 ^ 23 - 1)) then INR v - INR n * rsigmoid (th 0%nat) else 0.
Definition off_corner (th : nat -> R) : Prop := Rabs (th 0%nat) <> ln (2 ^ 23 - 1).
(** Categorical: one at the value, minus the softmax *)
Definition categorical_score (K : nat) (th : nat -> R) (v j : nat) : R := (if (v =? j)%nat then 1 else 0) - exp (th j) / rsum K (fun i => exp (th i)).
(** Normal: the standardised distance, and how much its square exceeds one *)
Definition gaussian_score (th : nat -> R) (v : R) (j : nat) : R :=
  match j with O => (v - th 0%nat) / exp (th 1%nat) | _ => ((v - th 0%nat) * (v - th 0%nat) / exp (th 1%nat) - 1) / 2 end.

Lemma bernoulli_leaf_ok F C L Rn par : leaf_ok (bernoulli_leaf rsigmoid F C L Rn par).
Proof. split; [reflexivity|]. intros. cbn [bernoulli_leaf lf_logp]. rewrite bernoulli_fin. reflexivity. Qed.
Lemma binomial_leaf_ok F C L Rn n par : leaf_ok (binomial_leaf rsigmoid F C L Rn n par).
Proof. split; [reflexivity|]. intros. cbn [binomial_leaf lf_logp]. rewrite binomial_fin. reflexivity. Qed.
Lemma categorical_closed K th v : (v < K)%nat -> categorical_lp K (fun j => Fin (th j)) v = Fin (rlog_softmax K th v).
Proof. intros Hv. unfold categorical_lp. rewrite (cat_logits_fin K _ th) by auto. f_equal. apply rlog_softmax_twice. lia. Qed.
Theorem C83_scores : forall F C L Rn,
  scored (bernoulli_family F C L Rn) off_corner bernoulli_score /\
  (forall n, scored (binomial_family F C L Rn n) off_corner (binomial_score n)) /\
  (forall K, (0 < K)%nat -> scored (categorical_family F C L Rn K) (fun _ => True) (categorical_score K)) /\
  scored (normal_family F C L Rn) (fun _ => True) gaussian_score.
Proof.
  intros F C L Rn. split; [|split; [|split]].
  - split; [intros; repeat split; apply bernoulli_leaf_ok|reflexivity|]. intros th w key v Hs Hv. apply (proj1 (Nat.ltb_lt v 2)) in Hv. cbn [bernoulli_family fam_leaf fam_n bernoulli_leaf lf_logp].
    rewrite rsum_S, rsum_0, Rplus_0_l. apply (dlim_ext 0 (fun t => INR v * clip (th key 0%nat + t * w key 0%nat) - 1 * softplus (clip (th key 0%nat + t * w key 0%nat)) + 0)).
    { intros t. rewrite bernoulli_closed by auto. cbn [toR]. ring. }
    eapply dlim_eq; [|apply dlim_logit; exact Hs]. unfold bernoulli_score, logit_score, saturation. destruct (Rlt_dec _ _); ring.
  - intros n. split; [intros; repeat split; apply binomial_leaf_ok|reflexivity|]. intros th w key v Hs Hv. cbn [binomial_family fam_leaf fam_n binomial_leaf lf_logp].
    rewrite rsum_S, rsum_0, Rplus_0_l. eapply dlim_ext; [|eapply dlim_eq; [|apply (dlim_logit (INR n) (INR v)); exact Hs]].
    { intros t. rewrite binomial_closed. reflexivity. }
    reflexivity.
  - intros K HK. split; [intros; repeat split; apply categorical_leaf_ok; auto|reflexivity|]. intros th w key v _ Hv. apply (proj1 (Nat.ltb_lt v K)) in Hv. cbn [categorical_family fam_leaf fam_n categorical_leaf lf_logp].
    eapply dlim_ext; [|apply (dlim_categorical K (th key) (w key) v Hv)]. intros t. rewrite (categorical_closed K (fun j => th key j + t * w key j)) by auto. reflexivity.
  - split; [intros; repeat split; apply normal_leaf_ok|reflexivity|]. intros th w key v _ _. cbn [normal_family fam_leaf fam_n normal_leaf lf_logp].
    rewrite !rsum_S, rsum_0, Rplus_0_l. eapply dlim_ext; [|apply (dlim_normal (th key 0%nat) (th key 1%nat) v (w key 0%nat) (w key 1%nat))]. intros t. rewrite normal_closed. reflexivity.
Qed.
Print Assumptions C83_scores.

(** * The gradient in all parameters *)
(** [G], [Gm] and [Gp] give the derivative of the loss along every line through the parameters. *)
Definition params_gradient {V} (fam : family V) (ob : objective) (E : einet V) (th : list nat -> nat -> R) (x : tensor (option V)) (labels : tensor nat)
    (G : nat -> list nat -> R) (Gm : list nat -> R) (Gp : list nat -> nat -> R) : Prop :=
  forall d dm dp,
    derivable_pt_lim (fun t => objective_at ob (step_all fam E th (fun j idx => t * d j idx) (fun idx => t * dm idx) (fun key j => t * dp key j)) x labels) 0
      (rsum (List.length (e_layers E)) (fun j => isum (shape (logits_at E j)) (fun idx => G j idx * d j idx)) + isum (shape (mix_logits E)) (fun idx => Gm idx * dm idx) +
       isum [e_C E; e_F E; e_L E; e_R E] (fun key => rsum (fam_n fam) (fun j => Gp key j * dp key j))).
(** Row [n] counts with the weight [W n c f l r] for the component. *)
Definition leaf_gradient {V} (N : nat) (x : tensor (option V)) (W : nat -> nat -> nat -> nat -> nat -> R) (score : (nat -> R) -> V -> nat -> R) (th : list nat -> nat -> R) (key : list nat) (j : nat) : R :=
  match key with
  | [c; f; l; r] => - rsum N (fun n => match observed x None n c f with Some v => W n c f l r * score (th key) v j | None => 0 end)
  | _ => 0
  end.
(** What the weights of a row sum to *)
Definition mass_of (ob : objective) : R := match ob with Discriminative => 0 | _ => 1 end.
Record shares {V} (ob : objective) (E : einet V) (N : nat) (W : nat -> nat -> nat -> nat -> nat -> R) : Prop := {
  sh_pos : ob <> Discriminative -> forall n c f l r, (n < N)%nat -> (c < e_C E)%nat -> (f < e_F E)%nat -> (l < e_L E)%nat -> (r < e_R E)%nat -> 0 <= W n c f l r;
  sh_sum : forall n c f, (n < N)%nat -> (c < e_C E)%nat -> (f < e_F E)%nat -> rsum (e_L E) (fun l => rsum (e_R E) (fun r => W n c f l r)) = mass_of ob / INR N }.
Lemma rsum_opp n f : rsum n (fun i => - f i) = - rsum n f.
Proof. replace (- rsum n f) with (-1 * rsum n f) by ring. rewrite <- rsum_scal_l. apply rsum_ext. intros; ring. Qed.
Lemma leaf_inner_params {V} (E : einet V) N x Gl (score : (nat -> R) -> V -> nat -> R) th m (w : list nat -> nat -> R) :
  leaf_inner E N x Gl (fun c f l r v => rsum m (fun j => score (th [c; f; l; r]) v j * w [c; f; l; r] j)) =
  isum [e_C E; e_F E; e_L E; e_R E] (fun key => rsum m (fun j => leaf_gradient N x (fun n c f l r => - Gl n c f l r) score th key j * w key j)).
Proof.
  unfold leaf_inner. cbn [isum]. rewrite (rsum_ext N _ (fun n => rsum (e_C E) (fun c => rsum (e_F E) (fun f => match observed x None n c f with
    | Some v => rsum (e_L E) (fun l => rsum (e_R E) (fun r => Gl n c f l r * rsum m (fun j => score (th [c; f; l; r]) v j * w [c; f; l; r] j))) | None => 0 end)))) by (intros; apply rsum_swap).
  rewrite rsum_swap. apply rsum_ext. intros c _. rewrite rsum_swap. apply rsum_ext. intros f _.
  rewrite (rsum_ext N _ (fun n => rsum (e_L E) (fun l => rsum (e_R E) (fun r => rsum m (fun j => match observed x None n c f with Some v => Gl n c f l r * score (th [c; f; l; r]) v j | None => 0 end * w [c; f; l; r] j))))).
  - rewrite rsum_swap. apply rsum_ext. intros l _. rewrite rsum_swap. apply rsum_ext. intros r _. rewrite rsum_swap. apply rsum_ext. intros j _. rewrite rsum_scal_r. f_equal.
    cbn [leaf_gradient]. rewrite <- rsum_opp. apply rsum_ext. intros n _. destruct (observed x None n c f); ring.
  - intros n _. destruct (observed x None n c f) as [v|].
    + apply rsum_ext. intros l _. apply rsum_ext. intros r _. rewrite <- rsum_scal_l. apply rsum_ext. intros; ring.
    + symmetry. rewrite (rsum_ext _ _ (fun _ => 0)); [apply rsum_zero|]. intros l _. rewrite (rsum_ext _ _ (fun _ => 0)); [apply rsum_zero|]. intros r _. rewrite (rsum_ext _ _ (fun _ => 0)); [apply rsum_zero|]. intros; ring.
Qed.
Lemma family_path {V} g o (E : einet V) fam smooth score th w : accepted g o E -> scored fam smooth score -> leafE E = fam_leaf fam th ->
  (forall c f l r, (c < e_C E)%nat -> (f < e_F E)%nat -> (l < e_L E)%nat -> (r < e_R E)%nat -> smooth (th [c; f; l; r])) ->
  leaf_path (leafE E) (fun t => fam_leaf fam (fun key j => th key j + t * w key j)) (fun c f l r v => rsum (fam_n fam) (fun j => score (th [c; f; l; r]) v j * w [c; f; l; r] j)).
Proof.
  intros A HS HL Hsm. pose proof (accepted_ok g o E A) as HE. split.
  - rewrite HL. f_equal. apply functional_extensionality. intros key. apply functional_extensionality. intros j. ring.
  - intros t. rewrite HL. apply (sc_size _ _ _ HS).
  - intros t v. rewrite HL. apply (sc_supp _ _ _ HS).
  - intros c f l r v Hc Hf Hl Hr Hv. unfold leafE in Hc, Hf, Hl, Hr. rewrite ?(eo_lC _ HE), ?(eo_lF _ HE), ?(eo_lL _ HE), ?(eo_lR _ HE) in *. rewrite HL in Hv. apply (sc_diff _ _ _ HS); auto.
Qed.
Lemma weight_sum {V} g o (E : einet V) ob N x labels n : accepted g o E -> batch E N x -> (n < N)%nat -> objective_ok ob (e_K E) N labels -> rsum (e_K E) (fun k => weight ob E x labels n k) = mass_of ob.
Proof.
  intros A HB Hn HO. assert (HIT: forall ob, ob = Labels \/ ob = Discriminative -> objective_ok ob (e_K E) N labels -> rsum (e_K E) (fun k => if (k =? get labels [n])%nat then 1 else 0) = 1).
  { intros ob' Hob HO'. assert (HL: labelled (e_K E) N labels) by (destruct Hob; subst ob'; apply HO'). etransitivity; [|apply (rsum_indicator (e_K E) (get labels [n]) (fun _ => 1)); apply HL; auto]. apply rsum_ext. intros; ring. }
  pose proof (PropTrain.post_sum g o E A N x n HB Hn) as PS. destruct ob; unfold weight, mass_of.
  - exact PS.
  - pose proof (classes_pos g o E A) as K0. rewrite (rsum_ext _ _ (fun _ => / INR (e_K E) * 1)) by (intros; ring). rewrite rsum_scal_l, rsum_const. rewrite Rmult_1_r. apply Rinv_l. apply not_0_INR. lia.
  - apply (HIT Labels); auto.
  - etransitivity; [apply (rsum_minus (e_K E) (fun k => if (k =? get labels [n])%nat then 1 else 0) (fun k => post E x n k))|]. rewrite PS, (HIT Discriminative); auto. ring.
Qed.
Lemma weight_pos {V} g o (E : einet V) ob N x labels n k : accepted g o E -> batch E N x -> (n < N)%nat -> (k < e_K E)%nat -> ob <> Discriminative -> 0 <= weight ob E x labels n k.
Proof.
  intros A HB Hn Hk Hob. destruct ob; unfold weight; try congruence.
  - destruct (post_pos g o E A N x n k HB Hn Hk) as ((H & _) & _). lra.
  - left. apply Rinv_0_lt_compat, lt_0_INR. lia.
  - destruct (k =? get labels [n])%nat; lra.
Qed.
(** Every loss is differentiable in all parameters of logits and leaves.  For a component of a leaf the derivative in parameter [j] is minus the
    sum of its scores at the rows, weighted with the shares that the rows give to the component. *)
Theorem C83_gradient : forall V (fam : family V) smooth score g o (E : einet V) th ob N x labels, scored fam smooth score -> accepted g o E -> leafE E = fam_leaf fam th ->
  (forall c f l r, (c < e_C E)%nat -> (f < e_F E)%nat -> (l < e_L E)%nat -> (r < e_R E)%nat -> smooth (th [c; f; l; r])) ->
  batch E N x -> (0 < N)%nat -> objective_ok ob (e_K E) N labels ->
  exists G Gm W, shares ob E N W /\ params_gradient fam ob E th x labels G Gm (leaf_gradient N x W score th).
Proof.
  intros V fam smooth score g o E th ob N x labels HS A HL Hsm HB HN HO. set (w := weight ob E x labels). pose proof (lt_0_INR N HN) as NP.
  exists (wG E N x w), (wm E N x w), (fun n c f l r => - wl E N x w n c f l r). split.
  - assert (HG: forall n k, (n < N)%nat -> (k < e_K E)%nat -> gradient g E (gG E x None n k) (gm E x None n k) (gl E x None n k)).
    { intros n k Hn Hk. eapply gradient_holds; eauto. }
    assert (EW: forall n c f l r, - wl E N x w n c f l r = rsum (e_K E) (fun k => w n k / INR N * gl E x None n k c f l r)).
    { intros. unfold wl. rewrite <- rsum_opp. apply rsum_ext. intros k _. unfold Rdiv. ring. }
    split.
    + intros Hob n c f l r Hn Hc Hf Hl Hr. rewrite EW. apply rsum_nonneg. intros k Hk. apply Rmult_le_pos; [|apply (gr_leaf_pos _ _ _ _ _ (HG n k Hn Hk)); auto].
      apply Rmult_le_pos; [eapply weight_pos; eauto|left; apply Rinv_0_lt_compat; auto].
    + intros n c f Hn Hc Hf. rewrite (rsum_ext _ _ (fun l => rsum (e_K E) (fun k => w n k / INR N * rsum (e_R E) (fun r => gl E x None n k c f l r)))).
      * rewrite rsum_swap. rewrite (rsum_ext _ _ (fun k => w n k * / INR N)).
        -- etransitivity; [apply (rsum_scal_r (/ INR N) (e_K E) (fun k => weight ob E x labels n k))|]. rewrite (weight_sum g o E ob N x labels n A HB Hn HO). reflexivity.
        -- intros k Hk. rewrite rsum_scal_l, (gr_leaf_sum _ _ _ _ _ (HG n k Hn Hk) c f Hc Hf). unfold Rdiv. ring.
      * intros l _. rewrite (rsum_ext _ _ (fun r => rsum (e_K E) (fun k => w n k / INR N * gl E x None n k c f l r))) by (intros; apply EW). rewrite rsum_swap. apply rsum_ext. intros k _. apply rsum_scal_l.
  - intros d dm dp. pose proof (family_path g o E fam smooth score th dp A HS HL Hsm) as HP.
    pose proof (explicit_gradient g o E ob N x labels A HB HN HO _ _ _ _ _ _ (line_curve g o E A d dm _ _ HP) (line_start g o E A d dm _ _ HP)) as HD. fold w in HD.
    eapply dlim_eq; [|exact HD]. unfold inner. rewrite leaf_inner_params. f_equal.
Qed.
Print Assumptions C83_gradient.
(** The gradient in the leaf parameters is unique. *)
Definition only_param (key0 : list nat) (j0 : nat) (key : list nat) (j : nat) : R := (if list_eq_dec Nat.eq_dec key key0 then 1 else 0) * (if (j =? j0)%nat then 1 else 0).
Lemma only_param_sum s m (Gp : list nat -> nat -> R) key0 j0 : inb s key0 -> (j0 < m)%nat -> isum s (fun key => rsum m (fun j => Gp key j * only_param key0 j0 key j)) = Gp key0 j0.
Proof.
  intros Hk Hj. rewrite <- (isum_only s key0 (fun key => Gp key j0) Hk). apply isum_ext. intros key _. unfold only_param.
  rewrite <- (rsum_indicator m j0 (fun j => Gp key j) Hj), <- rsum_scal_r. apply rsum_ext. intros j _. ring.
Qed.
Lemma params_unique {V} (fam : family V) ob E th x labels G Gm Gp G' Gm' Gp' : params_gradient fam ob E th x labels G Gm Gp -> params_gradient fam ob E th x labels G' Gm' Gp' ->
  forall key j, inb [e_C E; e_F E; e_L E; e_R E] key -> (j < fam_n fam)%nat -> Gp key j = Gp' key j.
Proof.
  intros H H' key j Hk Hj. assert (Z: forall (a : nat -> list nat -> R), rsum (List.length (e_layers E)) (fun j => isum (shape (logits_at E j)) (fun idx => a j idx * 0)) = 0).
  { intros a. rewrite (rsum_ext _ _ (fun _ => 0)); [apply rsum_zero|]. intros i _. rewrite (isum_ext _ _ (fun _ => 0)); [apply isum_zero|]. intros; ring. }
  assert (Z2: forall s (a : list nat -> R), isum s (fun idx => a idx * 0) = 0) by (intros s a; rewrite (isum_ext _ _ (fun _ => 0)); [apply isum_zero|intros; ring]).
  pose proof (uniqueness_limite _ _ _ _ (H (fun _ _ => 0) (fun _ => 0) (only_param key j)) (H' (fun _ _ => 0) (fun _ => 0) (only_param key j))) as U.
  rewrite !Z, !Z2, !only_param_sum in U by auto. lra.
Qed.

(** * Steps that lower the loss *)
(** Some partial derivative does not vanish: of a logit, of the mixing layer or of a leaf parameter. *)
Definition moving {V} (fam : family V) (E : einet V) (G : nat -> list nat -> R) (Gm : list nat -> R) (Gp : list nat -> nat -> R) : Prop :=
  not_stationary E G Gm \/ exists key j, inb [e_C E; e_F E; e_L E; e_R E] key /\ (j < fam_n fam)%nat /\ Gp key j <> 0.
Lemma against_all {V} (fam : family V) (E : einet V) G Gm Gp (s : R -> R) : (forall a, 0 <= a * s a) -> (forall a, a <> 0 -> 0 < a * s a) -> moving fam E G Gm Gp ->
  rsum (List.length (e_layers E)) (fun j => isum (shape (logits_at E j)) (fun idx => G j idx * - s (G j idx))) + isum (shape (mix_logits E)) (fun idx => Gm idx * - s (Gm idx)) +
  isum [e_C E; e_F E; e_L E; e_R E] (fun key => rsum (fam_n fam) (fun j => Gp key j * - s (Gp key j))) < 0.
Proof.
  intros H1 H2 HM. set (A := rsum _ _). set (B := isum (shape (mix_logits E)) _). set (C := isum [_; _; _; _] _).
  assert (HA: A = - rsum (List.length (e_layers E)) (fun j => isum (shape (logits_at E j)) (fun idx => G j idx * s (G j idx)))).
  { unfold A. rewrite <- rsum_opp. apply rsum_ext. intros j _. rewrite <- isum_opp. apply isum_ext. intros; ring. }
  assert (HB: B = - isum (shape (mix_logits E)) (fun idx => Gm idx * s (Gm idx))) by (unfold B; rewrite <- isum_opp; apply isum_ext; intros; ring).
  assert (HC: C = - isum [e_C E; e_F E; e_L E; e_R E] (fun key => rsum (fam_n fam) (fun j => Gp key j * s (Gp key j)))).
  { unfold C. rewrite <- isum_opp. apply isum_ext. intros key _. rewrite <- rsum_opp. apply rsum_ext. intros; ring. }
  rewrite HA, HB, HC. clear A B C HA HB HC.
  assert (Q1: 0 <= rsum (List.length (e_layers E)) (fun j => isum (shape (logits_at E j)) (fun idx => G j idx * s (G j idx)))) by (apply rsum_nonneg; intros; apply isum_nonneg; auto).
  assert (Q2: 0 <= isum (shape (mix_logits E)) (fun idx => Gm idx * s (Gm idx))) by (apply isum_nonneg; auto).
  assert (Q3: 0 <= isum [e_C E; e_F E; e_L E; e_R E] (fun key => rsum (fam_n fam) (fun j => Gp key j * s (Gp key j)))) by (apply isum_nonneg; intros; apply rsum_nonneg; auto).
  destruct HM as [[(j & idx & Hj & Hi & Hne)|(idx & Hi & Hne)]|(key & j & Hk & Hj & Hne)].
  - assert (0 < rsum (List.length (e_layers E)) (fun j => isum (shape (logits_at E j)) (fun idx => G j idx * s (G j idx)))); [|lra].
    eapply Rlt_le_trans; [|apply (rsum_term_le _ (fun j => isum (shape (logits_at E j)) (fun idx => G j idx * s (G j idx))) j Hj); intros; apply isum_nonneg; auto].
    apply (isum_pos _ (fun idx => G j idx * s (G j idx)) idx); auto.
  - assert (0 < isum (shape (mix_logits E)) (fun idx => Gm idx * s (Gm idx))); [|lra]. apply (isum_pos _ (fun idx => Gm idx * s (Gm idx)) idx); auto.
  - assert (0 < isum [e_C E; e_F E; e_L E; e_R E] (fun key => rsum (fam_n fam) (fun j => Gp key j * s (Gp key j)))); [|lra].
    apply (isum_pos _ (fun key => rsum (fam_n fam) (fun j => Gp key j * s (Gp key j))) key); auto; [intros; apply rsum_nonneg; auto|].
    eapply Rlt_le_trans; [apply (H2 _ Hne)|]. apply (rsum_term_le _ (fun j => Gp key j * s (Gp key j)) j Hj). auto.
Qed.
Lemma step_all_zero {V} (fam : family V) g o (E : einet V) th d dm dp : accepted g o E -> leafE E = fam_leaf fam th ->
  step_all fam E th (fun j idx => 0 * d j idx) (fun idx => 0 * dm idx) (fun key j => 0 * dp key j) = E.
Proof.
  intros A HL. unfold step_all. replace (fun key j => th key j + 0 * dp key j) with th by (apply functional_extensionality; intros; apply functional_extensionality; intros; ring).
  rewrite <- HL. apply (step_zero g o E A); intros; ring.
Qed.
(** Gradient descent and the first step of Adam on all parameters of logits and leaves, with a small learning rate, lower the loss of the
    batch unless every partial derivative vanishes. *)
Theorem C83_step : forall V (fam : family V) h g o (E : einet V) th ob x labels G Gm Gp, hyper_ok h -> accepted g o E -> leafE E = fam_leaf fam th ->
  params_gradient fam ob E th x labels G Gm Gp -> moving fam E G Gm Gp ->
  exists eta, 0 < eta /\ forall lr, 0 < lr < eta ->
    objective_at ob (step_all fam E th (fun j idx => - lr * G j idx) (fun idx => - lr * Gm idx) (fun key j => - lr * Gp key j)) x labels < objective_at ob E x labels /\
    objective_at ob (tr_net (fu_tr (full_run fam h E th [mkFs lr G Gm Gp]))) x labels < objective_at ob E x labels.
Proof.
  intros V fam h g o E th ob x labels G Gm Gp Hh A HL HG HM. pose proof (ho_eps h Hh) as He.
  assert (DES: forall s : R -> R, (forall a, 0 <= a * s a) -> (forall a, a <> 0 -> 0 < a * s a) -> exists e, 0 < e /\ forall t, 0 < t < e ->
    objective_at ob (step_all fam E th (fun j idx => t * - s (G j idx)) (fun idx => t * - s (Gm idx)) (fun key j => t * - s (Gp key j))) x labels < objective_at ob E x labels).
  { intros s H1 H2. pose proof (against_all fam E G Gm Gp s H1 H2 HM) as NEG.
    destruct (descent_lemma _ _ (HG (fun j idx => - s (G j idx)) (fun idx => - s (Gm idx)) (fun key j => - s (Gp key j))) NEG) as (e & Pe & D). exists e. split; auto. intros t Ht. specialize (D t Ht). cbv beta in D.
    rewrite (step_all_zero fam g o E th (fun j idx => - s (G j idx)) (fun idx => - s (Gm idx)) (fun key j => - s (Gp key j)) A HL) in D. exact D. }
  destruct (DES (fun a => a)) as (e1 & P1 & D1); [intros a; nra|intros a Ha; nra|].
  set (s := fun a => a / (Rabs a + hy_eps h)). destruct (DES s) as (e2 & P2 & D2).
  { intros a. unfold s. pose proof (Rabs_pos a). replace (a * (a / (Rabs a + hy_eps h))) with ((a * a) * / (Rabs a + hy_eps h)) by (unfold Rdiv; ring). apply Rmult_le_pos; [apply Rle_0_sqr|left; apply Rinv_0_lt_compat; lra]. }
  { intros a Ha. unfold s. pose proof (Rabs_pos a). replace (a * (a / (Rabs a + hy_eps h))) with ((a * a) * / (Rabs a + hy_eps h)) by (unfold Rdiv; ring). apply Rmult_lt_0_compat; [nra|apply Rinv_0_lt_compat; lra]. }
  exists (Rmin e1 e2). split; [apply Rmin_pos; auto|]. intros lr (L1 & L2). pose proof (Rmin_l e1 e2). pose proof (Rmin_r e1 e2). split.
  - specialize (D1 lr ltac:(lra)). cbv beta in D1. revert D1. apply Rle_lt_trans. right. f_equal. unfold step_all. f_equal; [| |f_equal]; repeat (apply functional_extensionality; intros); ring.
  - specialize (D2 lr ltac:(lra)). revert D2. apply Rle_lt_trans. right. f_equal. unfold full_run, step_all. cbn [fold_left full_start]. unfold adam_full. cbn [fu_tr fu_th fu_mom fs_lr fs_G fs_Gm fs_Gp].
    unfold adam_net. cbn [tr_net tr_start tr_mom tr_mix].
    assert (FC: forall a, adam_change h lr (adam_moments h fresh a) = lr * - s a) by (intros a; rewrite first_change by auto; unfold s, Rdiv; ring).
    f_equal; [| |f_equal]; repeat (apply functional_extensionality; intros); rewrite FC; reflexivity.
Qed.
Print Assumptions C83_step.

(** * Saturation *)
(** A Bernoulli or Binomial component whose parameter has left the interval that clamp_probs allows has derivative zero: gradient descent
    and a first step of Adam leave it where it is, whatever the data. *)
Theorem C83_saturated_refuted : forall (fam : family nat) F C L Rn g o (E : einet nat) th ob N x labels G Gm Gp, fam = bernoulli_family F C L Rn \/ (exists n, fam = binomial_family F C L Rn n) ->
  accepted g o E -> leafE E = fam_leaf fam th -> (forall c f l r, (c < e_C E)%nat -> (f < e_F E)%nat -> (l < e_L E)%nat -> (r < e_R E)%nat -> Rabs (th [c; f; l; r] 0%nat) <> ln (2 ^ 23 - 1)) ->
  batch E N x -> (0 < N)%nat -> objective_ok ob (e_K E) N labels -> params_gradient fam ob E th x labels G Gm Gp ->
  forall c f l r, (c < e_C E)%nat -> (f < e_F E)%nat -> (l < e_L E)%nat -> (r < e_R E)%nat -> ln (2 ^ 23 - 1) < Rabs (th [c; f; l; r] 0%nat) ->
    Gp [c; f; l; r] 0%nat = 0 /\ forall h lr, hyper_ok h -> fu_th (full_run fam h E th [mkFs lr G Gm Gp]) [c; f; l; r] 0%nat = th [c; f; l; r] 0%nat.
Proof.
  intros fam F C L Rn g o E th ob N x labels G Gm Gp HF A HL Hsm HB HN HO HG c f l r Hc Hf Hl Hr Hsat.
  assert (Z: Gp [c; f; l; r] 0%nat = 0).
  { destruct (C83_scores F C L Rn) as (SB & SN & _).
    assert (X: exists score, scored fam off_corner score /\ (forall v, score (th [c; f; l; r]) v 0%nat = 0) /\ (0 < fam_n fam)%nat).
    { destruct HF as [->|(n & ->)]; [exists bernoulli_score|exists (binomial_score n)]; (split; [auto|]; split; [|cbn; lia]); intros v; unfold bernoulli_score, binomial_score; destruct (Rlt_dec _ _); auto; lra. }
    destruct X as (score & HS & Zs & Hn). destruct (C83_gradient nat fam off_corner score g o E th ob N x labels HS A HL Hsm HB HN HO) as (G' & Gm' & W & _ & HG').
    rewrite (params_unique fam ob E th x labels _ _ _ _ _ _ HG HG' [c; f; l; r] 0%nat) by (cbn; auto). cbn [leaf_gradient]. rewrite (rsum_ext _ _ (fun _ => 0)); [rewrite rsum_zero; ring|].
    intros n _. destruct (observed x None n c f); auto. rewrite Zs. ring. }
  split; auto. intros h lr Hh. unfold full_run. cbn [fold_left full_start]. unfold adam_full. cbn [fu_th fu_mom fs_Gp fs_lr]. rewrite Z. rewrite first_change by auto. unfold Rdiv. rewrite Ropp_0, Rmult_0_l, Rmult_0_r, Rplus_0_r. reflexivity.
Qed.
Print Assumptions C83_saturated_refuted.

(** * Stationary points *)
(** The sum over the rows in which the entry is observed *)
Definition over_rows {V} (N : nat) (x : tensor (option V)) (c f : nat) (h : nat -> V -> R) : R := rsum N (fun n => match observed x None n c f with Some v => h n v | None => 0 end).
(** Shares of the rows in the components of one entry: not negative, and those of a row sum to 1 / N *)
Definition soft_assignment (N L Rn : nat) (W : nat -> nat -> nat -> R) : Prop :=
  (forall n l r, (n < N)%nat -> (l < L)%nat -> (r < Rn)%nat -> 0 <= W n l r) /\ forall n, (n < N)%nat -> rsum L (fun l => rsum Rn (fun r => W n l r)) = 1 / INR N.
Lemma stationary {V} (fam : family V) smooth score g o (E : einet V) th ob N x labels G Gm Gp c f : scored fam smooth score -> accepted g o E -> leafE E = fam_leaf fam th ->
  (forall c f l r, (c < e_C E)%nat -> (f < e_F E)%nat -> (l < e_L E)%nat -> (r < e_R E)%nat -> smooth (th [c; f; l; r])) ->
  batch E N x -> (0 < N)%nat -> objective_ok ob (e_K E) N labels -> ob <> Discriminative -> params_gradient fam ob E th x labels G Gm Gp -> (c < e_C E)%nat -> (f < e_F E)%nat ->
  exists W, soft_assignment N (e_L E) (e_R E) W /\ forall l r j a (T : V -> R) m, (l < e_L E)%nat -> (r < e_R E)%nat -> (j < fam_n fam)%nat -> Gp [c; f; l; r] j = 0 -> a <> 0 ->
    (forall v, score (th [c; f; l; r]) v j = a * (T v - m)) -> over_rows N x c f (fun n v => W n l r) * m = over_rows N x c f (fun n v => W n l r * T v).
Proof.
  intros HS A HL Hsm HB HN HO Hob HG Hc Hf. destruct (C83_gradient V fam smooth score g o E th ob N x labels HS A HL Hsm HB HN HO) as (G' & Gm' & W & HW & HG').
  exists (fun n l r => W n c f l r). split.
  - split; [intros; apply (sh_pos _ _ _ _ HW); auto|]. intros n Hn. rewrite (sh_sum _ _ _ _ HW n c f Hn Hc Hf). destruct ob; try congruence; reflexivity.
  - intros l r j a T m Hl Hr Hj HZ Ha Hsc. rewrite (params_unique fam ob E th x labels _ _ _ _ _ _ HG HG' [c; f; l; r] j) in HZ by (cbn; auto). cbn [leaf_gradient] in HZ.
    assert (K: a * (over_rows N x c f (fun n v => W n c f l r * T v) - over_rows N x c f (fun n v => W n c f l r) * m) = 0).
    { unfold over_rows. rewrite <- rsum_scal_r, <- rsum_minus, <- rsum_scal_l. transitivity (- (- rsum N (fun n => match observed x None n c f with Some v => W n c f l r * score (th [c; f; l; r]) v j | None => 0 end))); [|rewrite HZ; ring].
      rewrite Ropp_involutive. apply rsum_ext. intros n _. destruct (observed x None n c f); [rewrite Hsc|]; ring. }
    apply Rmult_integral in K. destruct K; [contradiction|lra].
Qed.
(** At a point where the derivatives of the negative log-likelihood (of any of the three losses) in the parameters of a component vanish, the
    component has the moments of the rows, weighted with the shares the rows give to it: for Bernoulli and Binomial the mean, for
    Categorical the frequency of every value, for Normal the mean and the variance. *)
Theorem C83_moments : forall F C L Rn g ob N labels G Gm Gp c f, ob <> Discriminative -> (0 < N)%nat ->
  (forall o (E : einet nat) th x n, accepted g o E -> leafE E = fam_leaf (binomial_family F C L Rn n) th ->
    (forall c f l r, (c < e_C E)%nat -> (f < e_F E)%nat -> (l < e_L E)%nat -> (r < e_R E)%nat -> Rabs (th [c; f; l; r] 0%nat) < ln (2 ^ 23 - 1)) ->
    batch E N x -> objective_ok ob (e_K E) N labels -> params_gradient (binomial_family F C L Rn n) ob E th x labels G Gm Gp -> (c < e_C E)%nat -> (f < e_F E)%nat ->
    exists W, soft_assignment N (e_L E) (e_R E) W /\ forall l r, (l < e_L E)%nat -> (r < e_R E)%nat -> Gp [c; f; l; r] 0%nat = 0 ->
      over_rows N x c f (fun n v => W n l r) * (INR n * rsigmoid (th [c; f; l; r] 0%nat)) = over_rows N x c f (fun n v => W n l r * INR v)) /\
  (forall o (E : einet nat) th x, accepted g o E -> leafE E = fam_leaf (bernoulli_family F C L Rn) th ->
    (forall c f l r, (c < e_C E)%nat -> (f < e_F E)%nat -> (l < e_L E)%nat -> (r < e_R E)%nat -> Rabs (th [c; f; l; r] 0%nat) < ln (2 ^ 23 - 1)) ->
    batch E N x -> objective_ok ob (e_K E) N labels -> params_gradient (bernoulli_family F C L Rn) ob E th x labels G Gm Gp -> (c < e_C E)%nat -> (f < e_F E)%nat ->
    exists W, soft_assignment N (e_L E) (e_R E) W /\ forall l r, (l < e_L E)%nat -> (r < e_R E)%nat -> Gp [c; f; l; r] 0%nat = 0 ->
      over_rows N x c f (fun n v => W n l r) * rsigmoid (th [c; f; l; r] 0%nat) = over_rows N x c f (fun n v => W n l r * INR v)) /\
  (forall o (E : einet nat) th x K, (0 < K)%nat -> accepted g o E -> leafE E = fam_leaf (categorical_family F C L Rn K) th ->
    batch E N x -> objective_ok ob (e_K E) N labels -> params_gradient (categorical_family F C L Rn K) ob E th x labels G Gm Gp -> (c < e_C E)%nat -> (f < e_F E)%nat ->
    exists W, soft_assignment N (e_L E) (e_R E) W /\ forall l r j, (l < e_L E)%nat -> (r < e_R E)%nat -> (j < K)%nat -> Gp [c; f; l; r] j = 0 ->
      over_rows N x c f (fun n v => W n l r) * (exp (th [c; f; l; r] j) / rsum K (fun i => exp (th [c; f; l; r] i))) = over_rows N x c f (fun n v => W n l r * if (v =? j)%nat then 1 else 0)) /\
  (forall o (E : einet R) th x, accepted g o E -> leafE E = fam_leaf (normal_family F C L Rn) th ->
    batch E N x -> objective_ok ob (e_K E) N labels -> params_gradient (normal_family F C L Rn) ob E th x labels G Gm Gp -> (c < e_C E)%nat -> (f < e_F E)%nat ->
    exists W, soft_assignment N (e_L E) (e_R E) W /\ forall l r, (l < e_L E)%nat -> (r < e_R E)%nat ->
      (Gp [c; f; l; r] 0%nat = 0 -> over_rows N x c f (fun n v => W n l r) * th [c; f; l; r] 0%nat = over_rows N x c f (fun n v => W n l r * v)) /\
      (Gp [c; f; l; r] 1%nat = 0 -> over_rows N x c f (fun n v => W n l r) * exp (th [c; f; l; r] 1%nat) = over_rows N x c f (fun n v => W n l r * (v - th [c; f; l; r] 0%nat) ^ 2))).
Proof.
  intros F C L Rn g ob N labels G Gm Gp c f Hob HN. destruct (C83_scores F C L Rn) as (SB & SN & SC & SG).
  assert (NE: forall a, Rabs a < ln (2 ^ 23 - 1) -> Rabs a <> ln (2 ^ 23 - 1)) by (intros; lra). split; [|split; [|split]].
  - intros o E th x n A HL Hin HB HO HG Hc Hf. destruct (stationary _ _ _ g o E th ob N x labels G Gm Gp c f (SN n) A HL) as (W & HW & H); auto. { intros; apply NE; auto. }
    exists W. split; auto. intros l r Hl Hr HZ. apply (H l r 0%nat 1 INR); auto; try (cbn; lia); try lra. intros v. unfold binomial_score. destruct (Rlt_dec _ _) as [_|Hn]; [ring|]. exfalso. apply Hn. auto.
  - intros o E th x A HL Hin HB HO HG Hc Hf. destruct (stationary _ _ _ g o E th ob N x labels G Gm Gp c f SB A HL) as (W & HW & H); auto. { intros; apply NE; auto. }
    exists W. split; auto. intros l r Hl Hr HZ. apply (H l r 0%nat 1 INR); auto; try (cbn; lia); try lra. intros v. unfold bernoulli_score. destruct (Rlt_dec _ _) as [_|Hn]; [ring|]. exfalso. apply Hn. auto.
  - intros o E th x K HK A HL HB HO HG Hc Hf. destruct (stationary _ _ _ g o E th ob N x labels G Gm Gp c f (SC K HK) A HL) as (W & HW & H); auto.
    exists W. split; auto. intros l r j Hl Hr Hj HZ. apply (H l r j 1 (fun v => if (v =? j)%nat then 1 else 0)); auto; try lra. intros v. unfold categorical_score. ring.
  - intros o E th x A HL HB HO HG Hc Hf. destruct (stationary _ _ _ g o E th ob N x labels G Gm Gp c f SG A HL) as (W & HW & H); auto.
    exists W. split; auto. intros l r Hl Hr. pose proof (exp_pos (th [c; f; l; r] 1%nat)) as P. split; intros HZ.
    + apply (H l r 0%nat (/ exp (th [c; f; l; r] 1%nat)) (fun v => v)); auto; try (cbn; lia); try (apply Rinv_neq_0_compat; lra). intros v. unfold gaussian_score. field. lra.
    + apply (H l r 1%nat (/ (2 * exp (th [c; f; l; r] 1%nat))) (fun v => (v - th [c; f; l; r] 0%nat) ^ 2)); auto; try (cbn; lia); try (apply Rinv_neq_0_compat; lra). intros v. unfold gaussian_score. field. lra.
Qed.
Print Assumptions C83_moments.

(** * Runs *)
Definition rate (steps : list full_step) : R := fold_right (fun s a => fs_lr s + a) 0 steps.
Lemma rate_app a b : rate (a ++ b) = rate a + rate b.
Proof. unfold rate. induction a as [|s a IH]; cbn [app fold_right]; [ring|]. rewrite IH. ring. Qed.
Lemma total_rate_app {V} (a b : list (batch_step V)) : total_rate (a ++ b) = total_rate a + total_rate b.
Proof. unfold total_rate. induction a as [|s a IH]; cbn [app fold_right]; [ring|]. rewrite IH. ring. Qed.
Lemma full_as_run {V} (fam : family V) smooth score h (E : einet V) th steps : scored fam smooth score -> hyper_ok h -> leafE E = fam_leaf fam th -> Forall (fun s => 0 <= fs_lr s) steps ->
  let T := full_run fam h E th steps in
  exists bs, fu_tr T = train_run h E bs /\ total_rate bs = rate steps /\ Forall (step_ok (leafE E)) bs /\ last_leaf (leafE E) bs = fam_leaf fam (fu_th T) /\
    (forall key j, mom_inv h (fu_mom T key j)) /\ forall key j, Rabs (fu_th T key j - th key j) <= rate steps * reach h.
Proof.
  intros HS Hh HL. induction steps as [|s steps IH] using rev_ind; intros HF; cbv zeta.
  - exists []. repeat split; auto.
    + cbn. lra.
    + cbn. lra.
    + intros key j. cbn. unfold Rminus. rewrite Rplus_opp_r, Rabs_R0. lra.
  - apply Forall_app in HF as (HF & HFs). inversion HFs as [|? ? Hlr _]. subst. destruct (IH HF) as (bs & E1 & E2 & E3 & E4 & E5 & E6). set (T := full_run fam h E th steps) in *.
    set (T' := adam_full fam h T s). assert (ET: full_run fam h E th (steps ++ [s]) = T') by (unfold full_run; rewrite fold_left_app; reflexivity). rewrite ET.
    exists (bs ++ [mkBs (fs_lr s) (fs_G s) (fs_Gm s) (fam_leaf fam (fu_th T'))]). split; [|split; [|split; [|split; [|split]]]].
    + unfold train_run. rewrite fold_left_app. fold (train_run h E bs). rewrite <- E1. reflexivity.
    + rewrite total_rate_app, rate_app, E2. reflexivity.
    + apply Forall_app. split; auto. constructor; [|constructor]. split; [exact Hlr|]. rewrite HL. apply (sc_size _ _ _ HS).
    + unfold last_leaf. rewrite fold_left_app. reflexivity.
    + intros key j. apply moments_inv; auto.
    + intros key j. rewrite rate_app, Rmult_plus_distr_r. unfold T'. cbn [adam_full fu_th].
      replace (fu_th T key j + adam_change h (fs_lr s) (adam_moments h (fu_mom T key j) (fs_Gp s key j)) - th key j) with ((fu_th T key j - th key j) + adam_change h (fs_lr s) (adam_moments h (fu_mom T key j) (fs_Gp s key j))) by ring.
      eapply Rle_trans; [apply Rabs_triang|]. apply Rplus_le_compat; auto. cbn [rate fold_right]. rewrite Rplus_0_r. apply change_le; auto; [apply moments_inv; auto|cbn; lia].
Qed.
(** Training with Adam on all parameters, whatever the gradients: the constructor's contract holds afterwards, the leaf layer is the one of the
    moved parameters, and every parameter has moved by at most the sum of the learning rates times [reach]. *)
Theorem C83_run : forall V (fam : family V) smooth score h g o (E : einet V) th steps, scored fam smooth score -> hyper_ok h -> accepted g o E -> leafE E = fam_leaf fam th ->
  Forall (fun s => 0 <= fs_lr s) steps ->
  let T := full_run fam h E th steps in
  leafE (tr_net (fu_tr T)) = fam_leaf fam (fu_th T) /\ (forall key j, Rabs (fu_th T key j - th key j) <= rate steps * reach h) /\
  exists o', accepted g o' (tr_net (fu_tr T)) /\ within (rate steps * reach h) o o'.
Proof.
  intros V fam smooth score h g o E th steps HS Hh A HL HF T. destruct (full_as_run fam smooth score h E th steps HS Hh HL HF) as (bs & E1 & E2 & E3 & E4 & _ & E6). fold T in E1, E4, E6.
  destruct (C81_run V h g o E bs Hh A E3) as (o' & A' & W & L & _). rewrite E1, <- E2. split; [rewrite L; exact E4|]. split; [rewrite E2; auto|]. exists o'. auto.
Qed.
Print Assumptions C83_run.
(** A leaf whose log-probabilities move by at most [k] times as far as its parameters *)
Definition steady {V} (fam : family V) (k : R) : Prop := forall th th' key v d, lf_supp (fam_leaf fam th) v = true -> (forall j, (j < fam_n fam)%nat -> Rabs (th key j - th' key j) <= d) ->
  Rabs (toR (lf_logp (fam_leaf fam th) key v) - toR (lf_logp (fam_leaf fam th') key v)) <= k * d.
Theorem C83_steady : forall F C L Rn,
  steady (bernoulli_family F C L Rn) 1 /\ (forall n, steady (binomial_family F C L Rn n) (INR n)) /\ (forall K, (0 < K)%nat -> steady (categorical_family F C L Rn K) 2).
Proof.
  intros F C L Rn. split; [|split].
  - intros th th' key v d Hv H. apply (proj1 (Nat.ltb_lt v 2)) in Hv. cbn [bernoulli_family fam_leaf bernoulli_leaf lf_logp]. rewrite !bernoulli_closed by auto. cbn [toR].
    pose proof (logit_lip 1 (INR v) 0 (th key 0%nat) (th' key 0%nat)) as B. rewrite !Rplus_0_r in B. eapply Rle_trans; [apply B|].
    + split; [apply pos_INR|]. change 1 with (INR 1). apply le_INR. lia.
    + apply Rmult_le_compat_l; [lra|]. apply H. cbn. lia.
  - intros n th th' key v d Hv H. apply (proj1 (Nat.ltb_lt v (S n))) in Hv. cbn [binomial_family fam_leaf binomial_leaf lf_logp]. rewrite !binomial_closed. cbn [toR].
    eapply Rle_trans; [apply (logit_lip (INR n) (INR v))|].
    + split; [apply pos_INR|]. apply le_INR. lia.
    + apply Rmult_le_compat_l; [apply pos_INR|]. apply H. cbn. lia.
  - intros K HK th th' key v d Hv H. apply (proj1 (Nat.ltb_lt v K)) in Hv. cbn [categorical_family fam_leaf categorical_leaf lf_logp]. rewrite (categorical_closed K (th key)), (categorical_closed K (th' key)) by auto. cbn [toR].
    apply categorical_lip; auto.
Qed.
Print Assumptions C83_steady.
(** No constant serves for Normal leaves. *)
Theorem C83_normal_refuted : forall F C L Rn k, ~ steady (normal_family F C L Rn) k.
Proof.
  intros F C L Rn k H. specialize (H (fun _ _ => 0) (fun _ j => if (j =? 0)%nat then 1 else 0) [] (Rabs k + 1) 1 eq_refl). cbn [normal_family fam_leaf normal_leaf lf_logp Nat.eqb] in H. rewrite !normal_closed in H. cbn [toR] in H.
  assert (D: forall j : nat, (j < fam_n (normal_family F C L Rn))%nat -> Rabs (0 - (if (j =? 0)%nat then 1 else 0)) <= 1) by (intros j _; destruct (j =? 0)%nat; unfold Rabs; destruct (Rcase_abs _); lra).
  specialize (H D). rewrite Ropp_0, exp_0 in H. set (a := Rabs k) in *. assert (Ha: k <= a /\ 0 <= a) by (split; [apply Rle_abs|apply Rabs_pos]).
  match type of H with Rabs ?z <= _ => replace z with (- (a + 1 / 2)) in H by field end. rewrite Rabs_Ropp, Rabs_pos_eq in H by lra. lra.
Qed.
Print Assumptions C83_normal_refuted.
(** Log-likelihoods after a run on all parameters *)
Theorem C83_drift : forall V (fam : family V) smooth score k h g o (E : einet V) th steps N x ms, scored fam smooth score -> steady fam k -> hyper_ok h -> accepted g o E -> leafE E = fam_leaf fam th ->
  Forall (fun s => 0 <= fs_lr s) steps -> evidence E N x ms ->
  exists y y', forward E x ms = Ok y /\ forward (tr_net (fu_tr (full_run fam h E th steps))) x ms = Ok y' /\ forall n q, (n < N)%nat -> (q < e_K E)%nat ->
    isfin (get y [n; q]) = true /\ isfin (get y' [n; q]) = true /\
    Rabs (toR (get y [n; q]) - toR (get y' [n; q])) <= rate steps * reach h * (2 * INR (nodes g) + k * count_observed E x ms n).
Proof.
  intros V fam smooth score k h g o E th steps N x ms HS HK Hh A HL HF He. destruct (full_as_run fam smooth score h E th steps HS Hh HL HF) as (bs & E1 & E2 & E3 & E4 & _ & E6).
  assert (LW: leaves_within (k * (rate steps * reach h)) (leafE E) (last_leaf (leafE E) bs)).
  { rewrite E4, HL. split; [intros; apply (sc_supp _ _ _ HS)|]. intros c f l r v _ _ _ _ Hv. apply HK; auto. intros j _. rewrite Rabs_minus_sym. apply E6. }
  destruct (C81_drift V h g o E bs _ N x ms Hh A E3 LW He) as (y & y' & H1 & H2 & H3). exists y, y'. split; auto. rewrite E1. split; auto. intros n q Hn Hq. destruct (H3 n q Hn Hq) as (F1 & F2 & B).
  split; auto. split; auto. rewrite E2 in B. eapply Rle_trans; [exact B|]. right. ring.
Qed.
Print Assumptions C83_drift.

(** ** Concrete cases: a sum of [L] products of two Bernoulli leaves, all with parameter [a]; first two rows of zeros *)
Definition le_g (L : nat) : config := plain 2 1 1 L 1 1 0 0 TEinsum STopDown.
Definition le_leaf (L : nat) (a : R) : bleaf nat := bernoulli_leaf rsigmoid 2 1 L 1 (fun _ => a).
Definition le_o (L : nat) (a : R) : oracle nat := mkOracle (fun _ _ => Fin 0) (fun _ => Fin 0) (fun _ => Fin 0) (fun _ => Fin 0) [2]%nat (fun _ => [1; 0]%nat) (fun _ _ _ _ => Ok (le_leaf L a)).
Definition le_E (L : nat) (a : R) : einet nat := mkE 2 1 L 1 1 (LSimple (le_leaf L a) 1 [1; 0]%nat (argsort [1; 0]%nat)) None [LSum (mkL 1 L 1 1 (mkT [1; L; 1; 1]%nat (fun _ => Fin 0)))] None None.
Lemma le_accepted L a : (0 < L)%nat -> accepted (le_g L) (le_o L a) (le_E L a).
Proof.
  intros HL0.
  assert (O: oracle_ok (le_g L) (le_o L a)).
  { split; cbn [le_o o_logits o_top o_mix o_root o_sizes o_perm o_leaf]; auto.
    - intros r _. apply Permutation.perm_swap.
    - eexists. split; [reflexivity|]. split; [apply bernoulli_leaf_ok|]. repeat split; cbn [le_g plain g_L nval zval le_leaf bernoulli_leaf lf_L]; unfold nval; cbn [zval]; rewrite ?Nat2Z.id; reflexivity. }
  split; [reflexivity|exact O|]. destruct (build_succeeds (le_g L) (le_o L a)) as (E & HE).
  - apply plain_valid; try lia; try lra; try congruence. simpl; lia.
  - reflexivity.
  - exact O.
  - exists 0%R. split; [constructor|lra].
  - cbn [le_g plain g_depth zval]. lia.
  - discriminate.
  - rewrite HE. f_equal. unfold build in HE. apply bind_ok in HE as ([] & _ & HE). cbn [le_g plain g_struct] in HE. unfold build_top_down in HE.
    apply bind_ok in HE as (ls & Hls & HE). injection Hls as <-. apply bind_ok in HE as (ls' & Hls' & HE). change (zval (g_depth (le_g L)) =? 0)%Z with true in Hls'. cbv iota in Hls'.
    apply bind_ok in Hls' as (L' & HL & Hls'). injection Hls' as <-. pose proof (new_layer_eq _ _ _ _ _ _ _ _ HL) as EL. subst L'.
    apply bind_ok in HE as (l & Hl & HE). injection Hl as <-. apply bind_ok in HE as (lf & Hlf & HE). injection Hlf as <-.
    apply bind_ok in HE as (m & Hm & HE). injection Hm as <-. apply bind_ok in HE as (r & Hr & HE). injection Hr as <-. injection HE as <-. unfold nval. cbn [le_g plain g_F g_C g_L g_R g_K g_card zval]. rewrite ?Nat2Z.id. reflexivity.
Qed.
Lemma le_batch L a : batch (le_E L a) 2 st_x.
Proof. apply (two_rows_batch (le_E L a) 1 2 (fun _ _ _ => Some 0%nat)); auto. intros n c f u H. injection H as <-. lia. Qed.
Definition le_labels : tensor nat := mkT [2%nat] (fun _ => 0%nat).
(** With parameter 0 (probability 1/2) the zeros pull: some derivative is not zero, and small steps lower the loss. *)
Example C83_ex : exists G Gm Gp, params_gradient (bernoulli_family 2 1 2 1) Generative (le_E 2 0) (fun _ _ => 0) st_x le_labels G Gm Gp /\
  Gp [0; 0; 0; 0]%nat 0%nat + Gp [0; 0; 1; 0]%nat 0%nat = 1 / 2 /\
  exists eta, 0 < eta /\ forall lr, 0 < lr < eta ->
    objective_at Generative (tr_net (fu_tr (full_run (bernoulli_family 2 1 2 1) adam_defaults (le_E 2 0) (fun _ _ => 0) [mkFs lr G Gm Gp]))) st_x le_labels < objective_at Generative (le_E 2 0) st_x le_labels.
Proof.
  destruct (C83_gradient nat (bernoulli_family 2 1 2 1) off_corner bernoulli_score (le_g 2) (le_o 2 0) (le_E 2 0) (fun _ _ => 0) Generative 2 st_x le_labels (proj1 (C83_scores 2 1 2 1)) (le_accepted 2 0 ltac:(lia)) eq_refl)
    as (G & Gm & W & HW & HG); [|apply le_batch|lia|exact I|].
  { intros. unfold off_corner. rewrite Rabs_R0. pose proof saturation_pos. unfold saturation in *. lra. }
  eexists G, Gm, _. split; [exact HG|].
  assert (S: leaf_gradient 2 st_x W bernoulli_score (fun _ _ => 0) [0; 0; 0; 0]%nat 0%nat + leaf_gradient 2 st_x W bernoulli_score (fun _ _ => 0) [0; 0; 1; 0]%nat 0%nat = 1 / 2).
  { cbn [leaf_gradient]. assert (OB: forall n, observed st_x None n 0%nat 0%nat = Some 0%nat) by reflexivity.
    assert (SC: bernoulli_score (fun _ => 0) 0%nat 0%nat = - (1 / 2)).
    { unfold bernoulli_score. pose proof saturation_pos as P. unfold saturation in P. destruct (Rlt_dec _ _) as [_|C]; [|exfalso; apply C; rewrite Rabs_R0; exact P]. unfold rsigmoid. rewrite Ropp_0, exp_0. cbn [INR]. field. }
    rewrite !rsum_S, !rsum_0, !OB, SC. pose proof (sh_sum _ _ _ _ HW 0%nat 0%nat 0%nat ltac:(lia) ltac:(cbn; lia) ltac:(cbn; lia)) as S0. pose proof (sh_sum _ _ _ _ HW 1%nat 0%nat 0%nat ltac:(lia) ltac:(cbn; lia) ltac:(cbn; lia)) as S1.
    change (e_L (le_E 2 0)) with 2%nat in S0, S1. change (e_R (le_E 2 0)) with 1%nat in S0, S1. rewrite !rsum_S, !rsum_0 in S0, S1. cbn [mass_of INR] in S0, S1. lra. }
  split; [exact S|]. destruct (C83_step nat (bernoulli_family 2 1 2 1) adam_defaults (le_g 2) (le_o 2 0) (le_E 2 0) (fun _ _ => 0) Generative st_x le_labels G Gm _ (proj1 C81_defaults) (le_accepted 2 0 ltac:(lia)) eq_refl HG) as (eta & He & H).
  - right. destruct (Req_dec (leaf_gradient 2 st_x W bernoulli_score (fun _ _ => 0) [0; 0; 0; 0]%nat 0%nat) 0) as [Z|Z].
    + exists [0; 0; 1; 0]%nat, 0%nat. split; [cbn; lia|]. split; [cbn; lia|]. lra.
    + exists [0; 0; 0; 0]%nat, 0%nat. split; [cbn; lia|]. split; [cbn; lia|auto].
  - exists eta. split; auto. intros lr Hlr. apply H; auto.
Qed.
(** With parameter 24 all leaves predict ones, both rows are zeros, and no leaf parameter has a derivative. *)
Example C83_saturated_ex : exists G Gm Gp, params_gradient (bernoulli_family 2 1 2 1) Generative (le_E 2 24) (fun _ _ => 24) st_x le_labels G Gm Gp /\
  forall f l, (f < 2)%nat -> (l < 2)%nat -> Gp [0; f; l; 0]%nat 0%nat = 0.
Proof.
  assert (B: ln (2 ^ 23 - 1) < 24).
  { rewrite <- (ln_exp 24). apply ln_increasing; [pose proof pow23; lra|]. assert (E: exp 24 = exp 1 ^ 24).
    { replace 24 with (INR 24 * 1) at 1 by (cbn [INR]; lra). generalize 24%nat. intros n. induction n as [|n IH]; [cbn; rewrite Rmult_0_l; apply exp_0|]. rewrite S_INR, Rmult_plus_distr_r, exp_plus, IH. cbn [pow]. rewrite Rmult_1_l. ring. }
    rewrite E. assert (P: 2 <= exp 1) by (pose proof (exp_ineq1 1 ltac:(lra)); lra). apply Rlt_le_trans with (2 ^ 24); [|apply pow_incr; lra]. assert (2 ^ 23 < 2 ^ 24) by (apply Rlt_pow; [lra|lia]). lra. }
  assert (A24: Rabs 24 = 24) by (apply Rabs_pos_eq; lra).
  assert (NC: forall c f l r, (c < e_C (le_E 2 24))%nat -> (f < e_F (le_E 2 24))%nat -> (l < e_L (le_E 2 24))%nat -> (r < e_R (le_E 2 24))%nat -> off_corner ((fun _ _ => 24) [c; f; l; r])) by (intros; unfold off_corner; rewrite A24; lra).
  destruct (C83_gradient nat (bernoulli_family 2 1 2 1) off_corner bernoulli_score (le_g 2) (le_o 2 24) (le_E 2 24) (fun _ _ => 24) Generative 2 st_x le_labels (proj1 (C83_scores 2 1 2 1)) (le_accepted 2 24 ltac:(lia)) eq_refl NC
    (le_batch 2 24) ltac:(lia) I) as (G & Gm & W & HW & HG).
  eexists G, Gm, _. split; [exact HG|]. intros f l Hf Hl.
  apply (C83_saturated_refuted (bernoulli_family 2 1 2 1) 2 1 2 1 (le_g 2) (le_o 2 24) (le_E 2 24) (fun _ _ => 24) Generative 2 st_x le_labels G Gm _ (or_introl eq_refl) (le_accepted 2 24 ltac:(lia)) eq_refl NC (le_batch 2 24) ltac:(lia) I HG); try (cbn; lia). cbv beta. rewrite A24. exact B.
Qed.
(** A single product, with probabilities 1/2, and one row of zeros and one of ones: the derivatives of the leaf parameters vanish. *)
Definition le_x : tensor (option nat) := two_rows 1 2 (fun n _ _ => Some (n mod 2)%nat).
Example C83_moments_ex : exists G Gm Gp, params_gradient (bernoulli_family 2 1 1 1) Lightning (le_E 1 0) (fun _ _ => 0) le_x le_labels G Gm Gp /\ batch (le_E 1 0) 2 le_x /\
  (forall f, (f < 2)%nat -> Gp [0; f; 0; 0]%nat 0%nat = 0) /\ Rabs 0 < ln (2 ^ 23 - 1).
Proof.
  pose proof saturation_pos as P. unfold saturation in P.
  assert (HB: batch (le_E 1 0) 2 le_x) by (apply (two_rows_batch (le_E 1 0) 1 2); auto; intros n c f u H; assert (u = n mod 2)%nat by congruence; subst u; apply Nat.mod_upper_bound; lia).
  destruct (C83_gradient nat (bernoulli_family 2 1 1 1) off_corner bernoulli_score (le_g 1) (le_o 1 0) (le_E 1 0) (fun _ _ => 0) Lightning 2 le_x le_labels (proj1 (C83_scores 2 1 1 1)) (le_accepted 1 0 ltac:(lia)) eq_refl)
    as (G & Gm & W & HW & HG); [|exact HB|lia|exact I|].
  { intros. unfold off_corner. rewrite Rabs_R0. lra. }
  eexists G, Gm, _. split; [exact HG|]. split; [exact HB|]. split; [|rewrite Rabs_R0; exact P]. intros f Hf. cbn [leaf_gradient].
  assert (OB: forall n, observed le_x None n 0%nat f = Some (n mod 2)%nat) by reflexivity.
  assert (SC: forall v, bernoulli_score (fun _ => 0) v 0%nat = INR v - 1 / 2).
  { intros v. unfold bernoulli_score. destruct (Rlt_dec _ _) as [_|C]; [|exfalso; apply C; rewrite Rabs_R0; exact P]. unfold rsigmoid. rewrite Ropp_0, exp_0. field. }
  rewrite !rsum_S, !rsum_0, !OB, !SC. pose proof (sh_sum _ _ _ _ HW 0%nat 0%nat f ltac:(lia) ltac:(cbn; lia) ltac:(cbn; lia)) as S0. pose proof (sh_sum _ _ _ _ HW 1%nat 0%nat f ltac:(lia) ltac:(cbn; lia) ltac:(cbn; lia)) as S1.
  change (e_L (le_E 1 0)) with 1%nat in S0, S1. change (e_R (le_E 1 0)) with 1%nat in S0, S1. rewrite !rsum_S, !rsum_0 in S0, S1. cbn [mass_of INR] in S0, S1. change (0 mod 2)%nat with 0%nat. change (1 mod 2)%nat with 1%nat. cbn [INR]. lra.
Qed.
