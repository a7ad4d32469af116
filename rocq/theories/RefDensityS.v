(** Sampling against the densities. *)
From Coq Require Import List Arith Lia Bool Reals Lra.
Import ListNotations.
From Verif Require Import Base RSum Num Tensor Prob Layers Circuit Net RefFwd RefSample RefLaw Leaf Perm RefLeaf RefLeafS Einet RefNet RefEinet RefEinetS Build RefBuild Spec RefSpec RefSpecS RefMore RefPack Density RefDensity.
Local Open Scope R_scope.
Local Arguments Nat.div : simpl never.
Local Arguments Nat.modulo : simpl never.
Local Arguments Nat.sub : simpl never.
Local Arguments Nat.mul : simpl never.
Local Arguments Nat.add : simpl never.

Lemma wroot_soft {V} g o (E : einet V) y : accepted g o E -> (1 < e_K E)%nat -> (y < e_K E)%nat ->
  wroot E 1 y = exp (toR (o_root o [0; y; 0; 0]%nat)) / rsum (e_K E) (fun j => exp (toR (o_root o [0; j; 0; 0]%nat))).
Proof.
  intros HA HK Hy. destruct (root_logits g o E HA HK) as (s & Es & Hs). unfold wroot. rewrite Es. unfold wsoft, rsoftmax.
  rewrite Hs. apply f_equal2; [f_equal; unfold Rdiv; rewrite Rinv_1; ring|]. apply rsum_ext. intros j Hj. rewrite Hs. f_equal. unfold Rdiv. rewrite Rinv_1. ring.
Qed.

Lemma sample_net {V} (E : einet V) q k : einet_ok E -> groups_agree E -> (k < e_K E)%nat -> neteval (snet E 1) q k = neteval (fnet E) q k.
Proof.
  intros HE Hg Hk. unfold neteval. cbn [snet fnet net_with nR nmix nls]. apply rsum_ext. intros r Hr. f_equal.
  apply (evals_ext (e_R E) _ (leaf_out E) (e_L E) 1 (e_K E)); auto.
  - apply layers_chain. apply (eo_layers E HE).
  - intros d l r' Hd Hl Hr'. unfold leafval. cbn [snet fnet net_with nF nC ngroup]. apply rprod_ext. intros f Hf. rewrite Hg by auto. auto.
Qed.

Section DensityS.
Context {V : Type}.
Variables (g : config) (o : oracle V) (E : einet V).
Hypothesis HA : accepted g o E.
Hypothesis Hco : consistent g.
Hypothesis Hctx : lf_ctx (leafE E) = true.
Variable Int : nat -> nat -> (V -> R) -> R -> Prop.
Hypothesis HD : density_leaf Int (leafE E).
Variable EL : list nat -> (V -> R) -> R.
Hypothesis HEL : leaf_expectation EL.
Let HE := accepted_ok g o E HA.
Let Hg := agree_groups g o E HA Hco.
Let C := e_C E.
Let F := e_F E.

(** The product of the test functions over a batch. *)
Definition row_tests (N : nat) (h : nat -> nat -> nat -> V -> R) (t : tensor (option V)) : R :=
  rprod N (fun n => tests C F (h n) (fun c f => entry t n c f)).
Definition gtest (h : nat -> nat -> nat -> V -> R) (n c f : nat) (v : option V) : R := match v with Some v => h n c f v | None => 1 end.
Lemma row_tests_3 N h t : row_tests N h t = rprod3 N C F (fun n c f => gtest h n c f (entry t n c f)).
Proof. reflexivity. Qed.

Lemma dfree a h ps : check_args E a = Ok tt -> class_ok E a -> a_ev a = None -> (0 < num_samples a)%nat ->
  a_mpe a = false -> a_mpel a = false -> a_tsum a = 1 -> missing C F (fun _ _ => @None V) ps ->
  (forall n c f v, 0 <= h n c f v) ->
  (forall n c f, (n < num_samples a)%nat -> (c < C)%nat -> (f < F)%nat -> leaf_law Int (leafE E) EL c f (h n c f)) ->
  exists I, (forall n y, (n < num_samples a)%nat -> (y < e_K E)%nat ->
      integrates Int (fun z => lik E (row_tensor C F z) None 0 y * tests C F (h n) z) ps (fun _ _ => None) (I n y)) /\
    expect EL (sample E a) (row_tests (num_samples a) h) =
    rprod (num_samples a) (fun n => rsum (e_K E) (fun y => cweight E a n y * I n y)).
Proof.
  intros Hch Hcl Hev HN Hm Hml HT Hps Hh HL.
  exists (fun n y => neteval (fnet E) (elg EL (h n)) y). split.
  - intros n y Hn Hy. pose proof (lik_tests E HE Int HD EL (h n) (fun _ _ => None) y ps Hy Hps) as P. cbn beta iota in P. apply P.
    + discriminate.
    + auto.
    + intros c f Hin. apply Hps in Hin as (Hc & Hf & _). apply HL; auto.
  - destruct (sample_free_law E HE EL HEL a Hch Hcl Hev HN Hm Hml) as [O X]; [rewrite HT; lra|auto|].
    transitivity (expect EL (sample E a) (fun t => rprod3 (num_samples a) (e_C E) (e_F E) (fun n c f => gtest h n c f (get t [n; c; f])))).
    + apply expect_ext_outcome; auto. intros t Ht. destruct (O _ _ Ht) as (t' & Et & St & _). inversion Et; subst t'.
      rewrite row_tests_3. apply rprod3_ext. intros n c f _ _ _. unfold entry. rewrite St. reflexivity.
    + rewrite (X (gtest h)). apply rprod_ext. intros n Hn. apply rsum_ext. intros y Hy. f_equal. rewrite HT, sample_net by auto. reflexivity.
Qed.

Lemma dgiven a e h ps : a_ev a = Some e -> check_args E a = Ok tt -> input_ok E (num_samples a) e (a_ms a) -> (0 < num_samples a)%nat ->
  a_mpe a = false -> a_mpel a = false -> a_tsum a = 1 ->
  (forall n, (n < num_samples a)%nat -> missing C F (row e (a_ms a) n) (ps n)) ->
  (forall n c f v, 0 <= h n c f v) ->
  (forall n c f, (n < num_samples a)%nat -> In (c, f) (ps n) -> leaf_law Int (leafE E) EL c f (h n c f)) ->
  exists I, (forall n y, (n < num_samples a)%nat -> (y < e_K E)%nat ->
      integrates Int (fun z => lik E (row_tensor C F z) None 0 y * tests C F (h n) z) (ps n) (row e (a_ms a) n) (I n y)) /\
    expect EL (sample E a) (row_tests (num_samples a) h) =
    rprod (num_samples a) (fun n => rsum (e_K E) (fun y => cweight E a n y * (I n y / lik E e (a_ms a) n y))).
Proof.
  intros Hev Hch Hin HN Hm Hml HT Hps Hh HL.
  exists (fun n y => neteval (fnet E) (fun c f l r => match row e (a_ms a) n c f with
     | Some v => pdf (leafE E) c f l r v * h n c f v | None => EL [c; f; l; r] (h n c f) end) y). split.
  - intros n y Hn Hy. apply (lik_tests E HE Int HD EL (h n) (row e (a_ms a) n) y (ps n)); auto.
    intros c f v Hc Hf Hv. destruct Hin as (_ & H & _). apply (H n c f v); auto. revert Hv. unfold row. destruct (in_ms _ f); [discriminate|auto].
  - destruct (sample_evidence_law E HE EL HEL a e Hev Hch Hin HN Hm Hml HT Hctx) as [O X].
    rewrite (expect_ext EL HEL _ _ (fun t => rprod3 (num_samples a) (e_C E) (e_F E) (fun n c f => gtest h n c f (entry t n c f)))) by (intros; apply row_tests_3).
    rewrite (X Hg (gtest h)). apply rprod_ext. intros n Hn. apply rsum_ext. intros y Hy. f_equal.
    rewrite (lik_eval E HE (num_samples a)) by auto. reflexivity.
Qed.
End DensityS.
