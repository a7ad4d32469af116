(** C54: the law of the samples of a mixture. *)
From Coq Require Import List Arith Lia Bool ZArith Reals Lra Permutation.
Import ListNotations.
From Verif Require Import Base RSum Num Tensor Prob Layers Circuit Net RefFwd Leaf RefLeaf RefLeafS TypeChecks Einet RefNet RefEinet RefEinetS RefMpe Build RefBuild Spec RefSpec RefSpecS RefPack RefPost RefDensity Mixture RefMixture RefMixLaw PropMix Ex.
Local Open Scope R_scope.
Local Arguments Nat.div : simpl never.
Local Arguments Nat.modulo : simpl never.
Local Arguments Nat.sub : simpl never.
Local Arguments Nat.mul : simpl never.
Local Arguments Nat.add : simpl never.

(** * Vocabulary *)
(** The law of a leaf draw of a mixture: the key starts with the component. *)
Definition mix_draw (Es : list (einet nat)) (key : list nat) (v : nat) : R :=
  match key with
  | c :: k => match nth_error Es c with Some E => leaf_draw (leafE E) k v | None => if (v =? 0)%nat then 1 else 0 end
  | [] => if (v =? 0)%nat then 1 else 0
  end.
Definition PrMix (B : nat) (Es : list (einet nat)) {A} (m : M nat A) (ev : A -> bool) : R :=
  expect (EL_discrete B (mix_draw Es)) m (fun a => if ev a then 1 else 0).
(** exp of the log-likelihood under component [c]. *)
Definition lik_at (Es : list (einet nat)) (c : nat) (x : tensor (option nat)) (ms : option (list nat)) (n k : nat) : R :=
  match nth_error Es c with Some E => lik E x ms n k | None => 0 end.
(** The weight of component [k]. *)
Definition share (ws : list R) (k : nat) : R := nth k ws 0 / lsum (fun w => w) ws.
(** Every entry of every row satisfies [S]. *)
Definition all_rows (N C F : nat) (S : nat -> nat -> nat -> bool) (t : tensor (option nat)) : bool :=
  forallb (fun n => forallb (fun c => forallb (fun f =>
    match entry t n c f with Some v => S c f v | None => false end) (seq 0 F)) (seq 0 C)) (seq 0 N).
(** A test of the rows of a batch: the product of a function of every entry. *)
Definition rows_test {V} (N C F : nat) (h : nat -> nat -> option V -> R) (t : tensor (option V)) : R :=
  rprod N (fun n => rprod C (fun c => rprod F (fun f => h c f (entry t n c f)))).
(** The class that the samples are drawn from. *)
Definition picks (g : config) (cl : class_arg) (y : nat) : Prop :=
  (cl = CNone /\ nval (g_K g) = 1%nat /\ y = 0%nat) \/ (cl = CInt y /\ (1 < nval (g_K g))%nat /\ (y < nval (g_K g))%nat).

(** * From the general law to probabilities *)
Lemma expect_EL {V A} (EL EL' : list nat -> (V -> R) -> R) (m : M V A) G : leaf_expectation EL ->
  (forall key f, EL key f = EL' key f) -> expect EL m G = expect EL' m G.
Proof.
  intros HEL HE. induction m as [a|e|w k IH|key k IH]; cbn [expect]; auto.
  - apply rsum_ext. intros i _. rewrite IH. reflexivity.
  - rewrite <- HE. apply (EL_ext EL HEL). auto.
Qed.
Section Discrete.
Variables (g : config) (Es : list (einet nat)) (B : nat).
Hypothesis HA : forall E, In E Es -> exists o, accepted g o E.
Hypothesis HB : forall E, In E Es -> discrete_leaf B (leafE E).
Hypothesis Hctx : forall E, In E Es -> lf_ctx (leafE E) = true.
Hypothesis Hne : (0 < length Es)%nat.
Let EL := EL_discrete B (mix_draw Es).
Let C := nval (g_C g).
Let F := nval (g_F g).

Lemma mix_EL_ok : leaf_expectation EL.
Proof.
  clear Hctx.
  assert (B0: (0 < B)%nat).
  { destruct Es as [|E l] eqn:EE; [cbn in Hne; lia|]. destruct (HA E (or_introl eq_refl)) as (o & A).
    apply (B_pos E (accepted_ok g o E A) B (HB E (or_introl eq_refl))). }
  assert (U: rsum B (fun v => if (v =? 0)%nat then 1 else 0) = 1).
  { rewrite (rsum_single B 0%nat); auto. intros v _ Hv. destruct (Nat.eqb_spec v 0); [congruence|auto]. }
  apply EL_discrete_ok. intros [|c k]; [exact U|]. unfold mix_draw. destruct (nth_error Es c) as [E|] eqn:En; [|exact U].
  apply nth_error_In in En. destruct (HA E En) as (o & A). apply (leaf_draw_sum E (accepted_ok g o E A) B (HB E En)).
Qed.
Lemma ELc_comp c E {A} (m : M nat A) G : nth_error Es c = Some E -> expect (ELc EL c) m G = expect (EL_discrete B (leaf_draw (leafE E))) m G.
Proof.
  intros En. apply expect_EL; [apply ELc_ok, mix_EL_ok|]. intros key f. unfold ELc, EL, EL_discrete, mix_draw. rewrite En. reflexivity.
Qed.
Lemma row_point xs t n : row_value g (fun c f v => eqv v (xs c f)) t n = rprod C (fun c => rprod F (fun f => eqv (entry t n c f) (xs c f))).
Proof. reflexivity. Qed.
Lemma rows_are_value N xs t : (if rows_are N C F xs t then 1 else 0) = rprod N (fun n => row_value g (fun c f v => eqv v (xs n c f)) t n).
Proof. rewrite rows_are_rprod. reflexivity. Qed.
Lemma rows_are_one x t : row_value g (fun c f v => eqv v (x c f)) t 0 = (if rows_are 1 C F (fun _ => x) t then 1 else 0).
Proof. rewrite rows_are_value, rprod_S, rprod_0. ring. Qed.

(** One row of one component. *)
Lemma comp_free_lik c cl y x : (c < length Es)%nat -> consistent g -> picks g cl y -> (forall ch f, (ch < C)%nat -> (f < F)%nat -> (x ch f < B)%nat) ->
  comp_free g Es EL cl 1 None c (fun ch f v => eqv v (x ch f)) = lik_at Es c (one_row C F x) None 0 y.
Proof.
  intros Hc Hco Hp Hx. unfold comp_free, lik_at. destruct (nth_error Es c) as [E|] eqn:En; [|apply nth_error_None in En; lia].
  pose proof (nth_error_In _ _ En) as Ein. destruct (HA E Ein) as (o & A). destruct (accepted_CF g o E A) as [EC EF]. pose proof (accepted_K g o E A) as EK.
  rewrite (ELc_comp c E _ _ En).
  transitivity (Pr B (leafE E) (sample E (mkArgs (Some 1%nat) cl None false false 1 None)) (rows_are 1 (e_C E) (e_F E) (fun _ => x))).
  { unfold Pr. rewrite EC, EF. apply expect_ext; [apply (EL_ok E (accepted_ok g o E A) B (HB E Ein))|]. intros t. apply rows_are_one. }
  assert (IS: in_support E B 1 (fun _ => x)) by (intros n ch f _ H1 H2; apply Hx; unfold C, F; lia).
  unfold C, F. rewrite <- EC, <- EF. destruct Hp as [(-> & HK & ->)|(-> & HK & Hy)].
  - rewrite (free_single g o E B A Hco (HB E Ein) (Hctx E Ein) 1 _ ltac:(lia) ltac:(lia) IS). rewrite rprod_S, rprod_0. ring.
  - rewrite (free_class g o E B A Hco (HB E Ein) (Hctx E Ein) 1 y _ ltac:(lia) ltac:(lia) ltac:(lia) IS). rewrite rprod_S, rprod_0. ring.
Qed.
Lemma only_row_lik (E : einet nat) o N e ms n k : accepted g o E -> evidence E N e ms -> (n < N)%nat -> (k < e_K E)%nat ->
  lik E (only_row e n) ms 0 k = lik E e ms n k.
Proof.
  intros A He Hn Hk. pose proof (accepted_ok g o E A) as HE.
  rewrite (lik_eval E HE 1) by (auto; apply evidence_input, (only_row_evidence g E N e ms n He Hn)).
  rewrite (lik_eval E HE N) by (auto; apply evidence_input; auto).
  apply neteval_ext; [apply fnet_wf; auto|exact Hk|]. intros c f l r _ _ _ _. unfold lval, row. rewrite (only_row_entry E N) by apply He. reflexivity.
Qed.
Lemma comp_given_lik c e ms N n x : (c < length Es)%nat -> consistent g -> nval (g_K g) = 1%nat -> (forall E, In E Es -> evidence E N e ms) -> (n < N)%nat ->
  (forall ch f, (ch < C)%nat -> (f < F)%nat -> (x ch f < B)%nat) ->
  (forall ch f v, (ch < C)%nat -> (f < F)%nat -> observed e ms n ch f = Some v -> x ch f = v) ->
  comp_given g Es EL ms e c n (fun ch f v => eqv v (x ch f)) = lik_at Es c (one_row C F x) None 0 0 / lik_at Es c e ms n 0.
Proof.
  intros Hc Hco HK He Hn Hx Hr. unfold comp_given, lik_at. destruct (nth_error Es c) as [E|] eqn:En; [|apply nth_error_None in En; lia].
  pose proof (nth_error_In _ _ En) as Ein. destruct (HA E Ein) as (o & A). destruct (accepted_CF g o E A) as [EC EF]. pose proof (accepted_K g o E A) as EK.
  rewrite (ELc_comp c E _ _ En).
  transitivity (Pr B (leafE E) (sample E (given (only_row e n) ms)) (rows_are 1 (e_C E) (e_F E) (fun _ => x))).
  { unfold Pr. rewrite EC, EF. apply expect_ext; [apply (EL_ok E (accepted_ok g o E A) B (HB E Ein))|]. intros t. apply rows_are_one. }
  unfold C, F in *. rewrite <- EC, <- EF in *.
  rewrite (given_single g o E B A Hco (HB E Ein) (Hctx E Ein) 1 (only_row e n) ms (fun _ => x) ltac:(lia)).
  - rewrite rprod_S, rprod_0, (only_row_lik E o N e ms n 0 A (He E Ein) Hn) by lia. ring.
  - apply (only_row_evidence g E N); auto.
  - lia.
  - intros i ch f _ H1 H2. apply Hx; auto.
  - intros i ch f v Hi H1 H2 Ho. assert (i = 0%nat) by lia. subst i. apply Hr; auto.
    unfold observed in *. rewrite (only_row_entry E N) in Ho by apply (He E Ein). exact Ho.
Qed.
End Discrete.

Lemma clusters_total {V} (EL : list nat -> (V -> R) -> R) nc ws n per k : leaf_expectation EL -> weights_ok ws ->
  expect EL (mix_clusters nc ws n per false) (fun _ => k) = k.
Proof.
  intros HEL HW. destruct per as [m|]; [reflexivity|].
  transitivity (k * expect EL (mix_clusters nc ws n None false) (fun cs => lprod (fun _ => 1) cs)).
  { rewrite <- expect_scal by auto. apply expect_ext; auto. intros cs. rewrite lprod_one. ring. }
  rewrite clusters_law by auto. rewrite (rsum_ext _ _ (fun i => nth i ws 0 / lsum (fun w => w) ws)) by (intros; ring).
  rewrite (weights_total ws HW), pow1. ring.
Qed.

Lemma weights_ne ws : weights_ok ws -> (0 < length ws)%nat.
Proof. intros [_ H]. destruct ws; [cbn [lsum] in H; lra|cbn; lia]. Qed.
(** Missing weights count as zero. *)
Lemma shares_pad ws n (G : nat -> R) : (length ws <= n)%nat ->
  rsum (length ws) (fun k => nth k ws 0 / lsum (fun w => w) ws * G k) = rsum n (fun k => nth k ws 0 / lsum (fun w => w) ws * G k).
Proof.
  intros H. replace (rsum n) with (rsum (length ws + (n - length ws))) by (f_equal; lia). rewrite rsum_add.
  rewrite (rsum_ext (n - length ws) _ (fun _ => 0)); [rewrite rsum_zero; ring|]. intros i _. rewrite nth_overflow by lia. unfold Rdiv. ring.
Qed.

(** * C54 *)
(** sample(num_samples=n), any leaves: a product of the same test of every row has the expected value of n
    independent draws from the weighted components.  What is missing: different tests of different rows
    (see C54_first_row_refuted). *)
Theorem C54_rows_partial : forall V nc g os (Es : list (einet V)) ws predict n cl T ms (EL : list nat -> (V -> R) -> R) (h : nat -> nat -> option V -> R),
  mixture_of nc g os Es -> (forall E, In E Es -> lf_ctx (leafE E) = true) -> (length ws <= length Es)%nat -> weights_ok ws ->
  (0 < n)%nat -> class_fits g cl -> T <> 0 -> leaf_expectation EL ->
  expect EL (mix_sample Es ws predict (mkMArgs (Some n) None cl None false false T ms)) (rows_test n (nval (g_C g)) (nval (g_F g)) h) =
  rsum (length Es) (fun k => share ws k *
    match nth_error Es k with
    | Some E => expect (fun key => EL (k :: key)) (sample E (mkArgs (Some 1%nat) cl None false false T ms)) (rows_test 1 (nval (g_C g)) (nval (g_F g)) h)
    | None => 0
    end) ^ n.
Proof.
  intros V nc g os Es ws predict n cl T ms EL h HM Hctx Hl HW Hn Hcl HT HEL. destruct (mixture_components _ _ _ _ HM) as (_ & Hpos & HA).
  unfold mix_sample. cbn [m_n m_per m_ev m_class m_mpe m_mpel m_tsum m_ms is_none orb assert lift mbind]. rewrite expect_bind by auto.
  transitivity (expect EL (mix_clusters (length Es) ws n None false) (fun cs => lprod (fun c => comp_free g Es EL cl T ms c h) cs)).
  - apply expect_ext_outcome; auto. intros cs Hcs. destruct (clusters_outcome _ _ _ _ _ _ _ Hcs) as (cs' & X & H1 & H2). assert (cs' = cs) by congruence. subst cs'. cbn in H2.
    assert (Hcs0: cs <> []) by (intros Z; rewrite Z in H2; cbn in H2; lia).
    rewrite <- (source_perm cs Hcs0 (fun c => comp_free g Es EL cl T ms c h)). rewrite <- (mix_free_law g Es HA Hctx EL HEL cs cl T ms Hcs0); auto.
    + rewrite H2. reflexivity.
    + apply H1. pose proof (weights_ne ws HW). lia.
  - rewrite clusters_law by auto. f_equal. rewrite (shares_pad ws (length Es)) by lia. apply rsum_ext. intros k Hk. unfold share. f_equal. unfold comp_free.
    destruct (nth_error Es k) as [E|] eqn:En; [|apply nth_error_None in En; lia]. apply expect_ext; [apply (ELc_ok EL k HEL)|]. intros t.
    unfold rows_test, row_value. rewrite rprod_S, rprod_0. ring.
Qed.
Print Assumptions C54_rows_partial.
(** The same for networks over finite data: the probability that all n rows lie in a box. *)
Theorem C54_box_partial : forall nc g os (Es : list (einet nat)) B ws predict n cl T ms (S : nat -> nat -> nat -> bool),
  mixture_of nc g os Es -> (forall E, In E Es -> discrete_leaf B (leafE E) /\ lf_ctx (leafE E) = true) -> (length ws <= length Es)%nat -> weights_ok ws ->
  (0 < n)%nat -> class_fits g cl -> T <> 0 ->
  PrMix B Es (mix_sample Es ws predict (mkMArgs (Some n) None cl None false false T ms)) (all_rows n (nval (g_C g)) (nval (g_F g)) S) =
  rsum (length Es) (fun k => share ws k *
    match nth_error Es k with
    | Some E => Pr B (leafE E) (sample E (mkArgs (Some 1%nat) cl None false false T ms)) (all_rows 1 (nval (g_C g)) (nval (g_F g)) S)
    | None => 0
    end) ^ n.
Proof.
  intros nc g os Es B ws predict n cl T ms S HM HE Hl HW Hn Hcl HT. destruct (mixture_components _ _ _ _ HM) as (_ & Hpos & HA).
  assert (HELm := mix_EL_ok g Es B HA (fun E H => proj1 (HE E H)) Hpos).
  set (h := fun c f o => match o with Some v => if S c f v then 1 else 0 | None => 0 end : R).
  assert (HV: forall k t, (if all_rows k (nval (g_C g)) (nval (g_F g)) S t then 1 else 0) = rows_test k (nval (g_C g)) (nval (g_F g)) h t).
  { intros k t. unfold all_rows, rows_test. rewrite forallb_rprod. apply rprod_ext. intros n0 _. rewrite forallb_rprod. apply rprod_ext. intros c _.
    rewrite forallb_rprod. apply rprod_ext. intros f _. unfold h. destruct (entry t n0 c f); auto. }
  unfold PrMix. rewrite (expect_ext _ HELm _ _ (rows_test n (nval (g_C g)) (nval (g_F g)) h)) by (intros; apply HV).
  rewrite (C54_rows_partial nat nc g os Es ws predict n cl T ms _ h HM (fun E H => proj2 (HE E H)) Hl HW Hn Hcl HT HELm). f_equal. apply rsum_ext. intros k Hk. f_equal.
  destruct (nth_error Es k) as [E|] eqn:En; auto. pose proof (nth_error_In _ _ En) as Ein. destruct (HA E Ein) as (o & A).
  unfold Pr. pose proof (ELc_comp g Es B HA (fun E H => proj1 (HE E H)) Hpos k E (sample E (mkArgs (Some 1%nat) cl None false false T ms)) (rows_test 1 (nval (g_C g)) (nval (g_F g)) h) En) as X.
  unfold ELc in X. etransitivity; [exact X|]. apply expect_ext; [apply (EL_ok E (accepted_ok g o E A) B (proj1 (HE E Ein)))|]. intros t. symmetry. apply HV.
Qed.
Print Assumptions C54_box_partial.
(** sample(num_samples=1) follows the mixture of the likelihoods. *)
Theorem C54_one_partial : forall nc g os (Es : list (einet nat)) B ws predict cl y x,
  mixture_of nc g os Es -> consistent g -> (forall E, In E Es -> discrete_leaf B (leafE E) /\ lf_ctx (leafE E) = true) -> (length ws <= length Es)%nat -> weights_ok ws ->
  picks g cl y -> (forall c f, (c < nval (g_C g))%nat -> (f < nval (g_F g))%nat -> (x c f < B)%nat) ->
  PrMix B Es (mix_sample Es ws predict (mkMArgs (Some 1%nat) None cl None false false 1 None)) (rows_are 1 (nval (g_C g)) (nval (g_F g)) (fun _ => x)) =
  rsum (length Es) (fun k => share ws k * lik_at Es k (one_row (nval (g_C g)) (nval (g_F g)) x) None 0 y).
Proof.
  intros nc g os Es B ws predict cl y x HM Hco HE Hl HW Hp Hx. destruct (mixture_components _ _ _ _ HM) as (_ & Hpos & HA).
  assert (HELm := mix_EL_ok g Es B HA (fun E H => proj1 (HE E H)) Hpos).
  assert (Hcl: class_fits g cl) by (destruct Hp as [(-> & _)|(-> & H1 & H2)]; [exact I|split; auto]).
  unfold PrMix. rewrite (expect_ext _ HELm _ _ (rows_test 1 (nval (g_C g)) (nval (g_F g)) (fun c f v => eqv v (x c f)))) by (intros; rewrite rows_are_rprod; reflexivity).
  rewrite (C54_rows_partial nat nc g os Es ws predict 1 cl 1 None _ _ HM (fun E H => proj2 (HE E H)) Hl HW ltac:(lia) Hcl R1_neq_R0 HELm).
  rewrite pow_1. apply rsum_ext. intros k Hk. f_equal.
  rewrite <- (comp_free_lik g Es B HA (fun E H => proj1 (HE E H)) (fun E H => proj2 (HE E H)) Hpos k cl y x Hk Hco Hp Hx).
  unfold comp_free. destruct (nth_error Es k) as [E|] eqn:En; [|apply nth_error_None in En; lia].
  apply expect_ext; [exact (ELc_ok _ k HELm)|]. intros t. unfold rows_test, row_value. rewrite rprod_S, rprod_0. ring.
Qed.
Print Assumptions C54_one_partial.
(** sample(num_samples_per_cluster=m): rows j*m .. j*m+m-1 are independent draws from component j. *)
Theorem C54_per_cluster_partial : forall nc g os (Es : list (einet nat)) B ws predict m cl y xs,
  mixture_of nc g os Es -> consistent g -> (forall E, In E Es -> discrete_leaf B (leafE E) /\ lf_ctx (leafE E) = true) -> 
  (0 < m)%nat -> picks g cl y ->
  (forall n c f, (n < m * length Es)%nat -> (c < nval (g_C g))%nat -> (f < nval (g_F g))%nat -> (xs n c f < B)%nat) ->
  PrMix B Es (mix_sample Es ws predict (mkMArgs None (Some m) cl None false false 1 None)) (rows_are (m * length Es) (nval (g_C g)) (nval (g_F g)) xs) =
  rprod (m * length Es) (fun n => lik_at Es (n / m) (one_row (nval (g_C g)) (nval (g_F g)) (xs n)) None 0 y).
Proof.
  intros nc g os Es B ws predict m cl y xs HM Hco HE Hm Hp Hx. destruct (mixture_components _ _ _ _ HM) as (_ & Hpos & HA).
  assert (HELm := mix_EL_ok g Es B HA (fun E H => proj1 (HE E H)) Hpos).
  assert (Hcl: plain_class g cl) by (destruct Hp as [(-> & _)|(-> & H1 & H2)]; [exact I|split; auto]).
  unfold mix_sample. cbn [m_n m_per m_ev m_class m_mpe m_mpel m_tsum m_ms is_none orb assert lift mbind mix_clusters].
  set (cs := flat_map (fun c => repeat c m) (seq 0 (length Es))).
  destruct (blocks m Hm (length Es) 0) as [B1 B2]. fold cs in B1, B2.
  assert (Lc: length cs = (m * length Es)%nat).
  { unfold cs. clear. generalize 0%nat. induction (length Es) as [|k IH]; intros i; cbn [seq flat_map length]; [lia|]. rewrite app_length, repeat_length, IH. lia. }
  assert (Hcs0: cs <> []). { intros Z. rewrite Z in Lc. cbn in Lc. assert (0 < m * length Es)%nat by nia. lia. }
  assert (Hin: forall c, In c cs -> (c < length Es)%nat).
  { intros c Hc. unfold cs in Hc. apply in_flat_map in Hc as (i & Hi & Hc). apply repeat_spec in Hc. subst i. apply in_seq in Hi. lia. }
  unfold PrMix. rewrite <- Lc.
  rewrite (expect_ext _ HELm _ _ (fun t => rprod (length cs) (fun n => row_value g (fun c f v => eqv v (xs n c f)) t n))) by (intros; apply rows_are_value).
  rewrite (mix_free_law g Es HA (fun E H => proj2 (HE E H)) _ HELm cs cl 1 None Hcs0 Hin Hcl R1_neq_R0 (fun n c f v => eqv v (xs n c f))).
  apply rprod_ext. intros n Hn. rewrite (source_sorted cs n Hcs0 B1 Hn). rewrite Lc in Hn. rewrite (B2 n Hn), Nat.add_0_l.
  apply comp_free_lik; auto; try (intros E H; apply HE; auto).
  apply Nat.div_lt_upper_bound; lia.
Qed.
Print Assumptions C54_per_cluster_partial.
(** With evidence, row n is drawn given row n of the evidence, from the component of its cluster, and the rows
    are independent; the clusters are arbitrary. *)
Theorem C54_evidence_partial : forall nc g os (Es : list (einet nat)) B ws predict e ms N num per cl mpel xs,
  mixture_of nc g os Es -> consistent g -> nval (g_K g) = 1%nat ->
  (forall E, In E Es -> evidence E N e ms /\ discrete_leaf B (leafE E) /\ lf_ctx (leafE E) = true) -> weights_ok ws ->
  (0 < N)%nat -> clusters_ok Es N (predict e ms) -> num = None \/ per = None ->
  (forall n c f, (n < N)%nat -> (c < nval (g_C g))%nat -> (f < nval (g_F g))%nat -> (xs n c f < B)%nat) ->
  (forall n c f v, (n < N)%nat -> (c < nval (g_C g))%nat -> (f < nval (g_F g))%nat -> observed e ms n c f = Some v -> xs n c f = v) ->
  PrMix B Es (mix_sample Es ws predict (mkMArgs num per cl (Some e) false mpel 1 ms)) (rows_are N (nval (g_C g)) (nval (g_F g)) xs) =
  rprod N (fun n => let c := nth n (predict e ms) 0%nat in
    lik_at Es c (one_row (nval (g_C g)) (nval (g_F g)) (xs n)) None 0 0 / lik_at Es c e ms n 0).
Proof.
  intros nc g os Es B ws predict e ms N num per cl mpel xs HM Hco HK HE HW HN [HL Hc] Hnp Hx Hr. destruct (mixture_components _ _ _ _ HM) as (_ & Hpos & HA).
  assert (HELm := mix_EL_ok g Es B HA (fun E H => proj1 (proj2 (HE E H))) Hpos).
  unfold mix_sample. cbn [m_n m_per m_ev m_class m_mpe m_mpel m_tsum m_ms].
  assert (Z: assert (is_none num || is_none per) = Ok tt) by (destruct Hnp as [->| ->]; [reflexivity|destruct num; reflexivity]).
  rewrite Z. cbn [lift mbind]. unfold PrMix. rewrite expect_bind by auto.
  etransitivity; [|apply (clusters_total _ (length Es) ws (hd 0%nat (shape e)) per _ HELm HW)]. apply expect_ext; auto. intros cs.
  rewrite (expect_ext _ HELm _ _ (fun t => rprod N (fun n => row_value g (fun c f v => eqv v (xs n c f)) t n))) by (intros; apply rows_are_value).
  rewrite (mix_given_law g Es HA (fun E H => proj2 (proj2 (HE E H))) _ HELm predict e ms N Hco (fun E H => proj1 (HE E H)) HN HL Hc (fun n c f v => eqv v (xs n c f))).
  apply rprod_ext. intros n Hn. cbv zeta.
  apply (comp_given_lik g Es B HA (fun E H => proj1 (proj2 (HE E H))) (fun E H => proj2 (proj2 (HE E H))) Hpos _ e ms N n (xs n)); auto.
  - apply Hc, nth_In. lia.
  - intros E H. apply HE. auto.
Qed.
Print Assumptions C54_evidence_partial.

(** ** Refutation: the rows are not identically distributed *)
(** The test that feature 0 is 0. *)
Definition first_zero (t : tensor (option nat)) : bool := match entry t 0 0 0 with Some v => (v =? 0)%nat | None => false end.
Lemma feature_prob o (E : einet nat) (p : R) F : accepted ex_bu_g o E -> leafE E = coin (fun _ => p) 5 1 2 2 -> 0 < p < 1 -> leaf_expectation F ->
  (forall l r, (l < 2)%nat -> (r < 2)%nat -> F [0; 0; l; r]%nat (fun v => if (v =? 0)%nat then 1 else 0) = p) ->
  expect F (sample E (mkArgs (Some 1%nat) CNone None false false 1 None)) (fun t => row_value ex_bu_g (fun c f v => if (f =? 0)%nat then eqv v 0 else 1) t 0) = p.
Proof.
  intros A HL Hp HF Hv. pose proof (accepted_ok _ _ E A) as HE. destruct (ex_dims o E A) as (EF & EC & EK).
  assert (X1: lf_ctx (leafE E) = true) by (rewrite HL; reflexivity).
  assert (ELR: e_L E = 2%nat /\ e_R E = 2%nat).
  { rewrite <- (eo_lL E HE), <- (eo_lR E HE). change (leaf_of (e_leaf E)) with (leafE E). rewrite HL. split; reflexivity. }
  destruct ELR as [EL0 ER0]. set (a := mkArgs (Some 1%nat) CNone None false false 1 None).
  destruct (sample_free_law E HE F HF a) as [O X]; auto.
  { unfold check_args. cbn. rewrite EK. reflexivity. }
  { exact I. }
  { cbn. lra. }
  change (num_samples a) with 1%nat in O, X. specialize (X (fun n c f v => if (f =? 0)%nat then eqv v 0 else 1)).
  etransitivity; [|etransitivity; [exact X|]].
  - apply expect_ext_outcome; auto. intros t Ht. destruct (O _ _ Ht) as (t' & Z & St & _). assert (t' = t) by congruence. subst t'.
    transitivity (rprod 1 (fun n => row_value ex_bu_g (fun c f v => if (f =? 0)%nat then eqv v 0 else 1) t n)); [rewrite (rprod_S 0), rprod_0; ring|].
    unfold rprod3, row_value. rewrite EC, EF. change (nval (g_C ex_bu_g)) with 1%nat. change (nval (g_F ex_bu_g)) with 5%nat.
    apply rprod_ext. intros n _. apply rprod_ext. intros c _. apply rprod_ext. intros f _. unfold entry. rewrite St. reflexivity.
  - rewrite rprod_S, rprod_0, Rmult_1_l, EK, rsum_1. unfold cweight. rewrite EK. cbn [Nat.ltb Nat.leb]. rewrite Rmult_1_l.
    pose proof (snet_wf E HE 1) as SW. cbn [a a_tsum].
    assert (K0: (0 < nCls (snet E 1))%nat) by (change (0 < e_K E)%nat; lia).
    rewrite (neteval_ext (snet E 1) _ (fun c f l r => (if (f =? 0)%nat then p else 1) * 1) 0 SW K0).
    + rewrite (neteval_scale (snet E 1) (fun _ _ _ _ => 1) (fun c f => if (f =? 0)%nat then p else 1) 0 SW K0); [|intros; lra|intros c f; destruct (f =? 0)%nat; lra].
      rewrite (neteval_one (snet E 1) (fun _ _ _ _ => 1) 0 SW K0) by (intros ? ? ? ? _ _ _ _; reflexivity). cbn [snet net_with nC nF]. rewrite EC, EF.
      rewrite !rprod_S, !rprod_0. cbn [Nat.eqb]. ring.
    + intros c f l r Hc Hf Hl Hr. cbn [snet net_with nC nF nL nR] in Hc, Hf, Hl, Hr. unfold elg. assert (c = 0%nat) by lia. subst c.
      destruct (Nat.eqb_spec f 0) as [->|Hf0].
      * cbn [eqv]. rewrite Hv by lia. ring.
      * rewrite (EL_one F HF). ring.
Qed.
(** One third of the rows of component 0 and one quarter of the rows of component 1 start with 0.  With equal weights
    the first of two rows starts with 0 with probability 5/16, a single row with probability 7/24. *)
Theorem C54_first_row_refuted : exists nc g os (Es : list (einet nat)) ws predict,
  mixture_of nc g os Es /\ consistent g /\ (forall E, In E Es -> discrete_leaf 2 (leafE E) /\ lf_ctx (leafE E) = true) /\
  length ws = length Es /\ weights_ok ws /\
  PrMix 2 Es (mix_sample Es ws predict (mkMArgs (Some 2%nat) None CNone None false false 1 None)) first_zero = 5 / 16 /\
  PrMix 2 Es (mix_sample Es ws predict (mkMArgs (Some 1%nat) None CNone None false false 1 None)) first_zero = 7 / 24.
Proof.
  destruct ex_mixture as (E1 & E2 & HM & L1 & L2). destruct (mixture_components _ _ _ _ HM) as (_ & Hpos & HA).
  destruct (HA E1 (or_introl eq_refl)) as (o1 & A1). destruct (HA E2 (or_intror (or_introl eq_refl))) as (o2 & A2).
  set (Es := [E1; E2]) in *. set (ws := [1 / 2; 1 / 2]).
  assert (HE: forall E, In E Es -> discrete_leaf 2 (leafE E) /\ lf_ctx (leafE E) = true).
  { intros E [<-|[<-|[]]]; [rewrite L1|rewrite L2]; (split; [apply coin_discrete; [apply third_ok || apply quarter_ok]|reflexivity]). }
  assert (HW: weights_ok ws).
  { split; [intros w [<-|[<-|[]]]; lra|]. unfold ws. cbn [lsum]. lra. }
  exists (VInt 2), ex_bu_g, [ex_o third; ex_o quarter], Es, ws, (fun _ _ => []). split; [exact HM|]. split; [exact I|]. split; [exact HE|]. split; [reflexivity|]. split; [exact HW|].
  assert (HELm := mix_EL_ok ex_bu_g Es 2 HA (fun E H => proj1 (HE E H)) Hpos). set (EL := EL_discrete 2 (mix_draw Es)) in *.
  set (h0 := fun (c f : nat) (v : option nat) => if (f =? 0)%nat then eqv v 0 else 1).
  assert (G: forall i, (i < 2)%nat -> comp_free ex_bu_g Es EL CNone 1 None i h0 = nth i [1 / 3; 1 / 4] 0).
  { intros i Hi. unfold comp_free. destruct i as [|[|]]; [| |lia]; cbn [Es nth_error nth].
    - apply (feature_prob o1 E1 (1 / 3) (ELc EL 0) A1 L1 ltac:(lra) (ELc_ok EL 0 HELm)). intros l r Hl Hr.
      unfold ELc, EL, EL_discrete. rewrite !rsum_S, rsum_0. cbn [mix_draw Es nth_error Nat.eqb]. unfold leaf_draw. rewrite L1.
      assert (RI: in_range (coin third 5 1 2 2) [0; 0; l; r]%nat = true) by (unfold in_range; cbn [coin lf_C lf_F lf_L lf_R]; rewrite !andb_true_iff, !Nat.ltb_lt; lia).
      rewrite RI. cbn [coin lf_logp Nat.eqb pval]. unfold third. rewrite !exp_ln by lra. lra.
    - apply (feature_prob o2 E2 (1 / 4) (ELc EL 1) A2 L2 ltac:(lra) (ELc_ok EL 1 HELm)). intros l r Hl Hr.
      unfold ELc, EL, EL_discrete. rewrite !rsum_S, rsum_0. cbn [mix_draw Es nth_error Nat.eqb]. unfold leaf_draw. rewrite L2.
      assert (RI: in_range (coin quarter 5 1 2 2) [0; 0; l; r]%nat = true) by (unfold in_range; cbn [coin lf_C lf_F lf_L lf_R]; rewrite !andb_true_iff, !Nat.ltb_lt; lia).
      rewrite RI. cbn [coin lf_logp Nat.eqb pval]. unfold quarter. rewrite !exp_ln by lra. lra. }
  assert (G1: forall i, (i < 2)%nat -> comp_free ex_bu_g Es EL CNone 1 None i (fun _ _ _ => 1) = 1).
  { intros i Hi. destruct (nth_error Es i) as [E|] eqn:En; [|apply nth_error_None in En; cbn in En; lia].
    pose proof (nth_error_In _ _ En) as Ein. destruct (HA E Ein) as (o & A). destruct (ex_dims o E A) as (_ & _ & EK).
    unfold comp_free. rewrite En. destruct (free_checks ex_bu_g E o CNone 1 1 None A I) as [C1 C2].
    destruct (sample_free_law E (accepted_ok _ _ E A) _ (ELc_ok EL i HELm) _ C1 C2 eq_refl Nat.lt_0_1 eq_refl eq_refl R1_neq_R0 (proj2 (HE E Ein))) as [_ X].
    specialize (X (fun _ _ _ _ => 1)). etransitivity; [|etransitivity; [exact X|]].
    - apply expect_ext; [apply (ELc_ok EL i HELm)|]. intros t. unfold row_value, rprod3.
      transitivity 1; [|symmetry].
      + rewrite (rprod_ext _ _ (fun _ => 1)); [apply rprod_one|]. intros. apply rprod_one.
      + rewrite (rprod_ext _ _ (fun _ => 1)); [apply rprod_one|]. intros. rewrite (rprod_ext _ _ (fun _ => 1)); [apply rprod_one|]. intros. apply rprod_one.
    - change (num_samples _) with 1%nat. rewrite rprod_S, rprod_0, EK, rsum_1. unfold cweight. rewrite EK. cbn [Nat.ltb Nat.leb].
      rewrite neteval_one; [lra|apply snet_wf, (accepted_ok _ _ E A)|cbn [snet net_with nCls]; lia|]. intros c f l r _ _ _ _. apply (EL_one _ (ELc_ok EL i HELm)). }
  set (hh := fun (n c f : nat) (v : option nat) => if (n =? 0)%nat then h0 c f v else 1).
  assert (HV: forall k t, (0 < k)%nat -> row_value ex_bu_g h0 t 0 = rprod k (fun n => row_value ex_bu_g (hh n) t n)).
  { intros k t Hk. rewrite (rprod_single k 0); auto. intros i _ Hi. unfold row_value, hh. destruct (Nat.eqb_spec i 0); [lia|].
    rewrite (rprod_ext _ _ (fun _ => 1)); [apply rprod_one|]. intros. apply rprod_one. }
  assert (HZ: forall t, (if first_zero t then 1 else 0) = row_value ex_bu_g h0 t 0).
  { intros t. unfold row_value, first_zero, h0. change (nval (g_C ex_bu_g)) with 1%nat. change (nval (g_F ex_bu_g)) with 5%nat.
    rewrite !rprod_S, !rprod_0. cbn [Nat.eqb]. unfold eqv. destruct (entry t 0 0 0) as [v|]; [destruct (v =? 0)%nat|]; ring. }
  assert (Law: forall cs, cs <> [] -> (forall c, In c cs -> (c < 2)%nat) ->
    expect EL (mix_sample_free Es (fun k => mkArgs (Some k) CNone None false false 1 None) cs) (fun t => if first_zero t then 1 else 0) =
    comp_free ex_bu_g Es EL CNone 1 None (source cs 0) h0 * rprod (length cs) (fun n => if (n =? 0)%nat then 1 else comp_free ex_bu_g Es EL CNone 1 None (source cs n) (fun _ _ _ => 1))).
  { intros cs Hcs Hc. assert (L0: (0 < length cs)%nat) by (destruct cs; [contradiction|cbn; lia]).
    rewrite (expect_ext _ HELm _ _ (fun t => rprod (length cs) (fun n => row_value ex_bu_g (hh n) t n))) by (intros t; rewrite HZ; apply HV; auto).
    rewrite (mix_free_law ex_bu_g Es HA (fun E H => proj2 (HE E H)) EL HELm cs CNone 1 None Hcs Hc I R1_neq_R0 hh).
    rewrite (rprod_split (length cs) 0) by auto. f_equal. apply rprod_ext. intros n Hn. destruct (Nat.eqb_spec n 0) as [->|Hn0]; [reflexivity|].
    unfold hh. destruct (Nat.eqb_spec n 0); [lia|reflexivity]. }
  assert (WP: forall i, (i < 2)%nat -> catp (map (fun p => nlog (Fin p)) ws) i = 1 / 2).
  { intros i Hi. rewrite weight_prob by auto. unfold ws. cbn [lsum]. destruct i as [|[|]]; [| |lia]; cbn [nth]; lra. }
  assert (SRC: source [0%nat; 0%nat] 0 = 0%nat /\ source [0%nat; 1%nat] 0 = 0%nat /\ source [1%nat; 0%nat] 0 = 0%nat /\ source [1%nat; 1%nat] 0 = 1%nat /\
               source [0%nat; 0%nat] 1 = 0%nat /\ source [0%nat; 1%nat] 1 = 1%nat /\ source [1%nat; 0%nat] 1 = 1%nat /\ source [1%nat; 1%nat] 1 = 1%nat /\ source [0%nat] 0 = 0%nat /\ source [1%nat] 0 = 1%nat) by (repeat split).
  destruct SRC as (S1 & S2 & S3 & S4 & S5 & S6 & S7 & S8 & S9 & S10).
  unfold PrMix. fold EL. split.
  - unfold mix_sample. cbn [m_n m_per m_ev m_class m_mpe m_mpel m_tsum m_ms is_none orb assert lift mbind]. rewrite expect_bind by auto.
    unfold mix_clusters. cbn [repeat draws mbind expect]. change (length (map (fun p => nlog (Fin p)) ws)) with 2%nat.
    rewrite !rsum_S, !rsum_0. rewrite !WP by lia.
    rewrite !Law by (try discriminate; intros c [<-|[<-|[]]]; lia). cbn [length]. rewrite !rprod_S, !rprod_0. cbn [Nat.eqb].
    rewrite S1, S2, S3, S4, S5, S6, S7, S8. rewrite !G, !G1 by lia. cbn [nth]. lra.
  - unfold mix_sample. cbn [m_n m_per m_ev m_class m_mpe m_mpel m_tsum m_ms is_none orb assert lift mbind]. rewrite expect_bind by auto.
    unfold mix_clusters. cbn [repeat draws mbind expect]. change (length (map (fun p => nlog (Fin p)) ws)) with 2%nat.
    rewrite !rsum_S, !rsum_0. rewrite !WP by lia.
    rewrite !Law by (try discriminate; intros c [<-|[]]; lia). cbn [length]. rewrite !rprod_S, !rprod_0. cbn [Nat.eqb].
    rewrite S9, S10. rewrite !G by lia. cbn [nth]. lra.
Qed.
Print Assumptions C54_first_row_refuted.

(** ** Examples *)
Lemma ex_parts : exists E1 E2, mixture_of (VInt 2) ex_bu_g [ex_o third; ex_o quarter] [E1; E2] /\
  (forall E, In E [E1; E2] -> discrete_leaf 2 (leafE E) /\ lf_ctx (leafE E) = true) /\
  (forall E N v, In E [E1; E2] -> (forall n f u, v n f = Some u -> (u < 2)%nat) -> evidence E N (table N v) None).
Proof.
  destruct ex_mixture as (E1 & E2 & HM & L1 & L2). destruct (mixture_components _ _ _ _ HM) as (_ & _ & HA). exists E1, E2. split; [exact HM|]. split.
  - intros E [<-|[<-|[]]]; [rewrite L1|rewrite L2]; (split; [apply coin_discrete; [apply third_ok || apply quarter_ok]|reflexivity]).
  - intros E N v HE Hv. destruct (HA E HE) as (o & A). destruct HE as [<-|[<-|[]]]; (split; [eapply table_batch; eauto|exact I]).
Qed.
Lemma uneven_ok : weights_ok [1; 3].
Proof. split; [intros w [<-|[<-|[]]]; lra|cbn [lsum]; lra]. Qed.
(** Weights 1 and 3; a row is drawn from component 0 with probability 1/4. *)
Example C54_ex : exists nc g os (Es : list (einet nat)), mixture_of nc g os Es /\ length Es = 2%nat /\
  PrMix 2 Es (mix_sample Es [1; 3] (fun _ _ => []) (mkMArgs (Some 1%nat) None CNone None false false 1 None)) (rows_are 1 1 5 (fun _ _ f => f mod 2)%nat) =
  1 / 4 * lik_at Es 0 (one_row 1 5 (fun _ f => f mod 2)%nat) None 0 0 + 3 / 4 * lik_at Es 1 (one_row 1 5 (fun _ f => f mod 2)%nat) None 0 0.
Proof.
  destruct ex_parts as (E1 & E2 & HM & HE & _). exists (VInt 2), ex_bu_g, [ex_o third; ex_o quarter], [E1; E2]. split; [exact HM|]. split; [reflexivity|].
  pose proof (C54_one_partial (VInt 2) ex_bu_g _ [E1; E2] 2 [1; 3] (fun _ _ => []) CNone 0 (fun _ f => f mod 2)%nat HM I HE (le_n 2) uneven_ok) as H.
  change (nval (g_C ex_bu_g)) with 1%nat in H. change (nval (g_F ex_bu_g)) with 5%nat in H. rewrite H; clear H.
  - cbn [length]. rewrite !rsum_S, rsum_0. unfold share. cbn [nth lsum]. lra.
  - left. repeat split.
  - intros c f _ _. apply Nat.mod_upper_bound. lia.
Qed.
(** Three rows in a box. *)
Example C54_box_ex : exists nc g os (Es : list (einet nat)) p0 p1, mixture_of nc g os Es /\ length Es = 2%nat /\
  PrMix 2 Es (mix_sample Es [1; 3] (fun _ _ => []) (mkMArgs (Some 3%nat) None CNone None false false 2 None)) (all_rows 3 1 5 (fun _ f v => (v <=? f)%nat)) =
  (1 / 4 * p0 + 3 / 4 * p1) ^ 3.
Proof.
  destruct ex_parts as (E1 & E2 & HM & HE & _). exists (VInt 2), ex_bu_g, [ex_o third; ex_o quarter], [E1; E2]. do 2 eexists. split; [exact HM|]. split; [reflexivity|].
  pose proof (C54_box_partial (VInt 2) ex_bu_g _ [E1; E2] 2 [1; 3] (fun _ _ => []) 3 CNone 2 None (fun _ f v => (v <=? f)%nat) HM HE (le_n 2) uneven_ok ltac:(lia) I ltac:(lra)) as H.
  change (nval (g_C ex_bu_g)) with 1%nat in H. change (nval (g_F ex_bu_g)) with 5%nat in H. rewrite H; clear H.
  cbn [length]. rewrite !rsum_S, rsum_0. unfold share. cbn [nth lsum nth_error]. replace (1 + (3 + 0)) with 4 by lra. rewrite Rplus_0_l. reflexivity.
Qed.
(** Rows 0 and 1 from component 0, rows 2 and 3 from component 1. *)
Example C54_per_cluster_ex : exists nc g os (Es : list (einet nat)), mixture_of nc g os Es /\ length Es = 2%nat /\
  let x := fun n => one_row 1 5 (fun _ f => ((n + f) mod 2)%nat) in
  PrMix 2 Es (mix_sample Es [1; 3] (fun _ _ => []) (mkMArgs None (Some 2%nat) CNone None false false 1 None)) (rows_are 4 1 5 (fun n _ f => (n + f) mod 2)%nat) =
  lik_at Es 0 (x 0%nat) None 0 0 * lik_at Es 0 (x 1%nat) None 0 0 * lik_at Es 1 (x 2%nat) None 0 0 * lik_at Es 1 (x 3%nat) None 0 0.
Proof.
  destruct ex_parts as (E1 & E2 & HM & HE & _). exists (VInt 2), ex_bu_g, [ex_o third; ex_o quarter], [E1; E2]. split; [exact HM|]. split; [reflexivity|]. cbv zeta.
  pose proof (C54_per_cluster_partial (VInt 2) ex_bu_g _ [E1; E2] 2 [1; 3] (fun _ _ => []) 2 CNone 0 (fun n _ f => (n + f) mod 2)%nat HM I HE ltac:(lia)) as H.
  change (nval (g_C ex_bu_g)) with 1%nat in H. change (nval (g_F ex_bu_g)) with 5%nat in H. change (2 * length [E1; E2])%nat with 4%nat in H. rewrite H; clear H.
  - rewrite !rprod_S, rprod_0. change (0 / 2)%nat with 0%nat. change (1 / 2)%nat with 0%nat. change (2 / 2)%nat with 1%nat. change (3 / 2)%nat with 1%nat. ring.
  - left. repeat split.
  - intros n c f _ _ _. apply Nat.mod_upper_bound. lia.
Qed.
(** Row 0 is in cluster 1, row 1 in cluster 0; both have missing features. *)
Example C54_evidence_ex : exists nc g os (Es : list (einet nat)), mixture_of nc g os Es /\ length Es = 2%nat /\
  let x := fun n => one_row 1 5 (fun _ f => ((n + f) mod 2)%nat) in
  PrMix 2 Es (mix_sample Es [1; 3] (fun _ _ => [1; 0]%nat) (mkMArgs None None CNone (Some (table 2 holes)) false false 1 None)) (rows_are 2 1 5 (fun n _ f => (n + f) mod 2)%nat) =
  lik_at Es 1 (x 0%nat) None 0 0 / lik_at Es 1 (table 2 holes) None 0 0 * (lik_at Es 0 (x 1%nat) None 0 0 / lik_at Es 0 (table 2 holes) None 1 0).
Proof.
  destruct ex_parts as (E1 & E2 & HM & HE & Hev). exists (VInt 2), ex_bu_g, [ex_o third; ex_o quarter], [E1; E2]. split; [exact HM|]. split; [reflexivity|]. cbv zeta.
  assert (Hlt: forall n f u, holes n f = Some u -> (u < 2)%nat).
  { assert (Am: forall m u, Some (m mod 2)%nat = Some u -> (u < 2)%nat) by (intros m u H; assert (u = m mod 2)%nat as -> by congruence; apply Nat.mod_upper_bound; lia).
    intros n f u. unfold holes. destruct n as [|[|n]], f as [|[|[|[|[|f]]]]]; try discriminate; apply Am. }
  pose proof (C54_evidence_partial (VInt 2) ex_bu_g _ [E1; E2] 2 [1; 3] (fun _ _ => [1; 0]%nat) (table 2 holes) None 2 None None CNone false (fun n _ f => (n + f) mod 2)%nat HM I eq_refl) as H.
  change (nval (g_C ex_bu_g)) with 1%nat in H. change (nval (g_F ex_bu_g)) with 5%nat in H. rewrite H; clear H.
  - rewrite !rprod_S, rprod_0. cbn [nth]. ring.
  - intros E H. split; [apply Hev; auto|apply HE; auto].
  - exact uneven_ok.
  - lia.
  - split; [reflexivity|]. intros c [<-|[<-|[]]]; cbn [length]; lia.
  - auto.
  - intros n c f _ _ _. apply Nat.mod_upper_bound. lia.
  - intros n c f v Hn Hc Hf Ho. change (holes n f = Some v) in Ho. assert (c = 0%nat) by lia. subst c.
    destruct n as [|[|]]; [| |lia]; destruct f as [|[|[|[|[|]]]]]; cbn [holes] in Ho; try discriminate; congruence || lia.
Qed.
