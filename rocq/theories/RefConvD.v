(** Iterated integrals of the ConvPc likelihood. *)
From Coq Require Import List Arith Lia Bool Reals Lra.
Import ListNotations.
From Verif Require Import Base RSum Num Tensor Prob Layers Circuit Net RefFwd RefSample RefLaw Leaf Perm RefLeaf RefLeafS Einet RefEinet RefSpecS RefMulti RefMv ConvPc RefConv RefConvNet RefConvS Spec Density RefDensity.
Local Open Scope R_scope.
Local Arguments Nat.div : simpl never.
Local Arguments Nat.modulo : simpl never.
Local Arguments Nat.sub : simpl never.
Local Arguments Nat.mul : simpl never.
Local Arguments Nat.add : simpl never.

(** An image with one value or nothing per channel and pixel, as a batch; pixel [h * W + w] is the one in row [h] and column [w]. *)
Definition image_tensor {V} (C H W : nat) (z : partial V) : tensor (option V) :=
  mkT [1; C; H; W]%nat (fun idx => match idx with [_; c; h; w] => z c (h * W + w)%nat | _ => None end).
(** Image [n] of a batch. *)
Definition nth_image {V} (W : nat) (x : tensor (option V)) (n : nat) : partial V := fun c f => get x [n; c; f / W; f mod W]%nat.

(** [sample(num_samples=N)] *)
Definition draw_images {V} (N : nat) : cargs := @mkCA V (Some N) None false false false 1.

Section Dens.
Context {V : Type}.
Variable P : convpc V.
Variable us : R -> list ulayer.
Hypothesis HP : conv_ok P us.
Let C := cp_C P. Let H := cp_H P. Let W := cp_W P. Let L := cp_L P. Let lf := cp_leaf P.
Variable Int : nat -> nat -> (V -> R) -> R -> Prop.
Hypothesis HD : density_leaf Int lf.
Let F := (H * W)%nat.

Lemma clfdims : lf_C lf = C /\ lf_F lf = F /\ lf_L lf = L /\ lf_R lf = 1%nat.
Proof. destruct (co_leafs _ _ HP) as [A1 A2 A3 A4 _ _ _ _ _]. auto. Qed.
Lemma clin c f : (c < C)%nat -> (f < F)%nat -> linear_integral (Int c f).
Proof. destruct clfdims as (Ec & Ef & _). intros. apply (dn_linear _ _ HD); [rewrite Ec|rewrite Ef]; auto. Qed.
Lemma ctotal c f l r : (c < C)%nat -> (f < F)%nat -> (l < L)%nat -> (r < 1)%nat -> Int c f (dens lf c f l r) 1.
Proof. destruct clfdims as (Ec & Ef & El & Er). intros. apply (dn_total _ _ HD); [rewrite Ec|rewrite Ef|rewrite El|rewrite Er]; auto. Qed.
Lemma cdens_pdf c f l r v : (c < C)%nat -> (f < F)%nat -> (l < L)%nat -> (r < 1)%nat -> lf_supp lf v = true ->
  dens lf c f l r v = pdf lf c f l r v.
Proof.
  intros Hc Hf Hl Hr Hv. unfold dens, pdf. rewrite Hv. destruct clfdims as (Ec & Ef & El & Er).
  assert (Q: isfin (lf_logp lf [c; f; l; r] v) = true).
  { apply (co_lf _ (co_leafs _ _ HP)); fold lf; rewrite ?Ec, ?Ef, ?El, ?Er; auto. }
  destruct (lf_logp lf [c; f; l; r] v); try discriminate. reflexivity.
Qed.
Lemma cdens_nonneg c f l r v : 0 <= dens lf c f l r v.
Proof. unfold dens. destruct (lf_supp lf v); [|lra]. destruct (lf_logp lf _ v); cbn [pval]; try lra. left. apply exp_pos. Qed.

Lemma image_images z : (forall c f v, (c < C)%nat -> (f < F)%nat -> z c f = Some v -> lf_supp lf v = true) -> images P 1 (image_tensor C H W z).
Proof.
  intros Hz. split; [reflexivity|]. intros n c h w v Hn Hc Hh Hw Hv. cbn in Hv. apply (Hz c (h * W + w)%nat); auto. apply flat_lt; auto.
Qed.
Lemma clik_image st z : (forall c f v, (c < C)%nat -> (f < F)%nat -> z c f = Some v -> lf_supp lf v = true) ->
  clik P st (image_tensor C H W z) 0 = neteval (conv_net P us 1) (lval (pdf lf) z) 0.
Proof.
  intros Hz. rewrite (clik_eval' P us HP st 1) by (auto; apply image_images; auto).
  apply neteval_ext; [apply conv_net_wf; exact HP|cbn; lia|]. intros c f l r Hc Hf _ _. unfold lval, image, image_tensor. cbn [get]. fold W.
  cbn [conv_net nF] in Hf. fold H W in Hf. destruct (flat_split f H W Hf) as (h & w & Hh & Hw & ->). rewrite flat_div, flat_mod by auto. reflexivity.
Qed.
(** A value outside the support makes the call fail. *)
Lemma clik_outside st z c f v : (c < C)%nat -> (f < F)%nat -> z c f = Some v -> lf_supp lf v = false ->
  clik P st (image_tensor C H W z) 0 = 0.
Proof.
  intros Hc Hf Hz Hv. unfold clik, conv_forward, leaf_images. fold C H W L lf.
  destruct (view_ok [1; C; H * W]%nat (image_tensor C H W z)) as (x1 & E1 & S1 & G1); [cbn [image_tensor shape numel]; ring|].
  change (size (image_tensor C H W z) 0) with 1%nat. rewrite E1. clear E1.
  assert (GX: get x1 [0; c; f]%nat = Some v).
  { destruct (flat_split f H W Hf) as (h & w & Hh & Hw & ->). rewrite (G1 _ [0; c; h; w]%nat); [exact Hz|cbn [image_tensor shape]; simpl; repeat split; auto|].
    cbn [image_tensor shape ravel numel]. ring. }
  destruct x1 as [sx gx]. cbn [shape] in S1. subst sx. cbn [bind]. unfold base_forward, dist_forward.
  set (x0 := tmap _ _). change (dim x0) with 3%nat. cbn [Nat.eqb]. set (x2 := unsq_end 2 x0).
  replace (forallb (fun idx => lf_supp lf (get x2 idx)) (all_idx (shape x2))) with false; [reflexivity|].
  symmetry. apply not_true_iff_false. rewrite forallb_forall. intros A. specialize (A [0; c; f; 0; 0]%nat).
  rewrite <- not_false_iff_true in A. apply A.
  - apply in_all_idx. change (shape x2) with [1; C; F; 1; 1]%nat. repeat constructor; auto.
  - change (get x2 [0; c; f; 0; 0]%nat) with (match gx [0; c; f]%nat with Some v => v | None => lf_zero lf end).
    cbn [get] in GX. rewrite GX. auto.
Qed.
Lemma clik_dens st (J : leaves) z : (forall c f, (c < C)%nat -> (f < F)%nat -> z c f <> None) ->
  clik P st (image_tensor C H W z) 0 = neteval (conv_net P us 1) (wval (dens lf) J z) 0.
Proof.
  intros Hz.
  destruct (forallb (fun c => forallb (fun f => match z c f with Some v => lf_supp lf v | None => true end) (seq 0 F)) (seq 0 C)) eqn:Es.
  - assert (S: forall c f v, (c < C)%nat -> (f < F)%nat -> z c f = Some v -> lf_supp lf v = true).
    { intros c f v Hc Hf Hv. rewrite forallb_forall in Es. specialize (Es c ltac:(apply in_seq; lia)).
      rewrite forallb_forall in Es. specialize (Es f ltac:(apply in_seq; lia)). rewrite Hv in Es. auto. }
    rewrite clik_image by auto. apply neteval_ext; [apply conv_net_wf; exact HP|cbn; lia|]. intros c f l r Hc Hf Hl Hr. unfold lval, wval.
    destruct (z c f) as [v|] eqn:Ev; [|destruct (Hz c f Hc Hf Ev)]. symmetry. apply cdens_pdf; auto. apply (S c f); auto.
  - assert (Fx: forall n (b : nat -> bool), forallb b (seq 0 n) = false -> exists i, (i < n)%nat /\ b i = false).
    { clear. intros n b. induction n; [discriminate|]. rewrite seq_S_app, forallb_app. cbn [forallb]. rewrite Nat.add_0_l, andb_true_r.
      intros H. apply andb_false_iff in H as [H|H]; [destruct (IHn H) as (i & Hi & E0); exists i; auto|exists n; auto]. }
    apply Fx in Es as (c & Hc & Es). apply Fx in Es as (f & Hf & Es). destruct (z c f) as [v|] eqn:Ev; [|discriminate].
    rewrite (clik_outside st z c f v) by auto. symmetry. apply (neteval_zero _ _ c f); [apply conv_net_wf; exact HP|cbn; lia|exact Hc|exact Hf| |].
    + intros c' f' l r Hc' Hf' _ _. unfold wval. destruct (z c' f') eqn:E'; [apply cdens_nonneg|destruct (Hz c' f' Hc' Hf' E')].
    + intros l r _ _. unfold wval. rewrite Ev. unfold dens. rewrite Es. auto.
Qed.
Lemma images_supp N x n : images P N x -> (n < N)%nat -> forall c f v, (c < C)%nat -> (f < F)%nat -> nth_image W x n c f = Some v -> lf_supp lf v = true.
Proof.
  intros [_ Hx] Hn c f v Hc Hf Hv. unfold nth_image in Hv. destruct (flat_split f H W Hf) as (h & w & Hh & Hw & ->). rewrite flat_div, flat_mod in Hv by auto.
  apply (Hx n c h w v); auto.
Qed.
(** The likelihood of an image with missing pixels is the integral of the likelihood over them. *)
Theorem clik_integral st N x n ps : images P N x -> (n < N)%nat -> missing C F (nth_image W x n) ps ->
  integrates Int (fun z => clik P st (image_tensor C H W z) 0) ps (nth_image W x n) (clik P st x n).
Proof.
  intros Hi Hn Hm. rewrite (clik_eval' P us HP st N) by auto. fold lf.
  pose proof (images_supp N x n Hi Hn) as Sup. change (image P x n) with (nth_image W x n).
  replace (neteval (conv_net P us 1) (lval (pdf lf) (nth_image W x n)) 0) with (neteval (conv_net P us 1) (wval (dens lf) (fun _ _ _ _ => 1) (nth_image W x n)) 0).
  2:{ apply neteval_ext; [apply conv_net_wf; exact HP|cbn; lia|]. intros c f l r Hc Hf Hl Hr. unfold lval, wval.
      destruct (nth_image W x n c f) as [v|] eqn:Ev; auto. apply cdens_pdf; auto. apply (Sup c f); auto. }
  apply (net_integrates (conv_net P us 1) (conv_net_wf P us HP 1) Int clin (dens lf) (fun _ _ _ _ => 1)); auto.
  - intros; apply cdens_nonneg.
  - intros; lra.
  - intros z Hz. apply clik_dens; auto.
  - intros c f l r Hin Hl Hr. destruct Hm as [_ Hm]. apply Hm in Hin as (Hc & Hf & _). apply ctotal; auto.
Qed.
(** The same against a product of test functions. *)
Theorem clik_tests st EL (h : nat -> nat -> V -> R) z ps : missing C F z ps ->
  (forall c f v, (c < C)%nat -> (f < F)%nat -> z c f = Some v -> lf_supp lf v = true) ->
  (forall c f v, 0 <= h c f v) ->
  (forall c f, In (c, f) ps -> leaf_law Int lf EL c f (h c f)) ->
  integrates Int (fun z => clik P st (image_tensor C H W z) 0 * tests C F h z) ps z
    (neteval (conv_net P us 1) (fun c f l r => match z c f with Some v => pdf lf c f l r v * h c f v | None => EL [c; f; l; r] (h c f) end) 0).
Proof.
  intros Hm Sup Hh HL. destruct clfdims as (Ec & Ef & El & Er).
  set (w := fun c f l r v => h c f v * dens lf c f l r v).
  set (J := fun c f l r => if existsb (fun p => Nat.eqb (fst p) c && Nat.eqb (snd p) f) ps then EL [c; f; l; r] (h c f) else 1).
  assert (HJin: forall c f l r, In (c, f) ps -> J c f l r = EL [c; f; l; r] (h c f)).
  { intros c f l r Hin. unfold J. replace (existsb _ ps) with true; auto. symmetry. apply existsb_exists. exists (c, f). split; auto.
    cbn. rewrite !Nat.eqb_refl. auto. }
  assert (Jp: forall c f l r, (c < C)%nat -> (f < F)%nat -> (l < L)%nat -> (r < 1)%nat -> 0 <= J c f l r).
  { intros c f l r Hc Hf Hl Hr. unfold J. destruct (existsb _ ps) eqn:Ex; [|lra].
    apply existsb_exists in Ex as ([c' f'] & Hin & Ex). cbn in Ex. apply andb_true_iff in Ex as [E1 E2].
    apply Nat.eqb_eq in E1, E2. subst c' f'. destruct (HL c f Hin) as [H0 HLL].
    apply (li_pos _ (clin c f Hc Hf) (fun v => dens lf c f l r v * h c f v)); [|apply HLL; rewrite ?El, ?Er; auto].
    intros v. apply Rmult_le_pos; auto. apply cdens_nonneg. }
  assert (Wp: forall c f l r v, (c < C)%nat -> (f < F)%nat -> (l < L)%nat -> (r < 1)%nat -> 0 <= w c f l r v).
  { intros. unfold w. apply Rmult_le_pos; auto. apply cdens_nonneg. }
  replace (neteval (conv_net P us 1) _ 0) with (neteval (conv_net P us 1) (wval w J z) 0).
  2:{ apply neteval_ext; [apply conv_net_wf; exact HP|cbn; lia|]. intros c f l r Hc Hf Hl Hr. unfold wval, w.
      destruct (z c f) as [v|] eqn:Ev; [rewrite cdens_pdf by (auto; apply (Sup c f); auto); ring|].
      apply HJin. apply Hm. auto. }
  apply (net_integrates (conv_net P us 1) (conv_net_wf P us HP 1) Int clin w J); auto.
  - intros zz Hz. rewrite (clik_dens st J) by auto. unfold tests.
    transitivity (rprod C (fun c => rprod F (fun f => match zz c f with Some v => h c f v | None => 1 end)) * neteval (conv_net P us 1) (wval (dens lf) J zz) 0); [ring|].
    change (rprod C) with (rprod (nC (conv_net P us 1))). change (rprod F) with (rprod (nF (conv_net P us 1))).
    rewrite <- (neteval_scale (conv_net P us 1) (wval (dens lf) J zz) (fun c f => match zz c f with Some v => h c f v | None => 1 end)).
    + apply neteval_ext; [apply conv_net_wf; exact HP|cbn; lia|]. intros c f l r Hc Hf _ _. unfold wval, w.
      destruct (zz c f) eqn:E'; [ring|destruct (Hz c f Hc Hf E')].
    + apply conv_net_wf; exact HP.
    + cbn; lia.
    + intros c f l r Hc Hf _ _. unfold wval. destruct (zz c f) eqn:E'; [apply cdens_nonneg|destruct (Hz c f Hc Hf E')].
    + intros c f. destruct (zz c f); auto. lra.
  - intros c f l r Hin Hl Hr. pose proof Hin as Hin'. apply Hm in Hin' as (Hc & Hf & _). rewrite HJin by auto.
    destruct (HL c f Hin) as [_ HLL]. apply (li_ext _ (clin c f Hc Hf) (fun v => dens lf c f l r v * h c f v)).
    + intros v. unfold w. ring.
    + apply HLL; rewrite ?El, ?Er; auto.
Qed.

(** Free samples, tested by one function per entry. *)
Variable val : V -> R.
Hypothesis Hctx : lf_ctx lf = true.
Theorem conv_sample_tests EL st N (g : nat -> nat -> nat -> num -> R) ps : leaf_expectation EL -> st_on st = false ->
  missing C F (fun _ _ => @None V) ps -> (forall n c f x, 0 <= g n c f x) ->
  (forall n c f, (n < N)%nat -> (c < C)%nat -> (f < F)%nat -> leaf_law Int lf EL c f (fun v => g n c f (Fin (val v)))) ->
  exists I, (forall n, (n < N)%nat ->
      integrates Int (fun z => clik P st (image_tensor C H W z) 0 * tests C F (fun c f v => g n c f (Fin (val v))) z) ps (fun _ _ => None) (I n)) /\
    expect EL (snd (conv_sample P val st (draw_images N))) (fun t => rprod3 N C F (fun n c f => g n c f (get t [n; c; f / W; f mod W]%nat))) = rprod N I.
Proof.
  intros HEL Hst Hps Hg HL.
  exists (fun n => neteval (conv_net P us 1) (fun c f l r => EL [c; f; l; r] (fun v => g n c f (Fin (val v)))) 0). split.
  - intros n Hn. apply (clik_tests st EL (fun c f v => g n c f (Fin (val v))) (fun _ _ => None)); auto; [intros; discriminate|].
    intros c f Hin. apply Hps in Hin as (Hc & Hf & _). apply HL; auto.
  - cbn [conv_sample draw_images ca_num ca_ev snd].
    pose proof (clays_law_off EL HEL _ _ _ _ _ _ _ _ 1 N (co_clays _ _ HP) R1_neq_R0) as HLL.
    assert (EV: live P st = map (fun _ => None) (cp_layers P)) by (unfold live; rewrite Hst; auto). rewrite <- EV in HLL.
    destruct (conv_free_law P us HP EL HEL val st (draw_images N) N _ _ g Hctx eq_refl eq_refl eq_refl HLL) as [_ X].
    unfold draw_images in *. etransitivity; [exact X|]. apply rprod_ext. intros n Hn. rewrite conv_neteval.
    pose proof (clays_chain _ _ _ _ _ _ _ _ 1 (co_clays _ _ HP)) as CH.
    assert (E1: evals (us 1) (fun _ _ _ => 1) 0%nat 0%nat 0%nat = 1).
    { apply (evals_one _ _ _ _ _ _ (fun _ _ _ => 1) CH); [intros d l r _ _ _; reflexivity|lia|lia|lia]. }
    rewrite E1. clear E1. unfold Rdiv. rewrite Rinv_1, Rmult_1_r.
    apply (evals_ext _ _ _ _ _ _ _ _ CH); try lia. intros d l r Hd Hl Hr. rewrite conv_leafval by exact Hd. unfold vmul. rewrite Rmult_1_r. reflexivity.
Qed.
End Dens.
