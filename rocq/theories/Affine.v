(** Affine substitution in Riemann integrals over the real line. *)
From Coq Require Import List Arith Lia Bool Reals Lra RList RiemannInt_SF.
Import ListNotations.
From Verif Require Import Density Gauss Integral.
Local Open Scope R_scope.

(** * Riemann integrals by approximation with step functions *)
Lemma step_close a b (phi phi' psi psi' : StepFun a b) (f : R -> R) : a <= b ->
  (forall t, a <= t <= b -> Rabs (f t - phi t) <= psi t) -> (forall t, a <= t <= b -> Rabs (f t - phi' t) <= psi' t) ->
  Rabs (RiemannInt_SF phi - RiemannInt_SF phi') <= RiemannInt_SF psi + RiemannInt_SF psi'.
Proof.
  intros Hab H1 H2. set (D := mkStepFun (StepFun_P28 (-1) phi phi')). set (S := mkStepFun (StepFun_P28 1 psi psi')).
  replace (RiemannInt_SF phi - RiemannInt_SF phi') with (RiemannInt_SF D) by (unfold D; rewrite StepFun_P30; ring).
  replace (RiemannInt_SF psi + RiemannInt_SF psi') with (RiemannInt_SF S) by (unfold S; rewrite StepFun_P30; ring).
  eapply Rle_trans; [apply StepFun_P34; auto|]. apply StepFun_P37; auto. intros x Hx. cbn [fe S D].
  specialize (H1 x ltac:(lra)). specialize (H2 x ltac:(lra)). replace (phi x + -1 * phi' x) with (- (f x - phi x) + (f x - phi' x)) by ring.
  eapply Rle_trans; [apply Rabs_triang|]. rewrite Rabs_Ropp. lra.
Qed.
Lemma riemann_approx f a b (pr : Riemann_integrable f a b) eps : a <= b -> 0 < eps ->
  exists phi psi : StepFun a b, (forall t, a <= t <= b -> Rabs (f t - phi t) <= psi t) /\ RiemannInt_SF psi < eps /\ Rabs (RiemannInt_SF phi - RiemannInt pr) < eps.
Proof.
  intros Hab He. unfold RiemannInt. destruct (RiemannInt_exists pr RinvN RinvN_cv) as (I & HI).
  destruct (HI eps He) as (n1 & H1). pose proof RinvN_cv as Rc. destruct (Rc eps He) as (n2 & H2). set (n := Nat.max n1 n2).
  destruct (phi_sequence_prop RinvN pr n) as (psi & P1 & P2). exists (phi_sequence RinvN pr n), psi. split; [|split].
  - intros t Ht. apply P1. rewrite Rmin_left, Rmax_right by lra. auto.
  - specialize (H2 n (Nat.le_max_r _ _)). unfold R_dist in H2. rewrite Rminus_0_r in H2. rewrite Rabs_right in H2 by (left; apply (cond_pos (RinvN n))).
    eapply Rle_lt_trans; [apply Rle_abs|]. eapply Rlt_trans; [exact P2|exact H2].
  - apply (H1 n (Nat.le_max_l _ _)).
Qed.
Lemma riemann_char f a b (pr : Riemann_integrable f a b) I : a <= b ->
  (forall eps, 0 < eps -> exists phi psi : StepFun a b, (forall t, a <= t <= b -> Rabs (f t - phi t) <= psi t) /\ RiemannInt_SF psi < eps /\ Rabs (RiemannInt_SF phi - I) < eps) ->
  RiemannInt pr = I.
Proof.
  intros Hab H. destruct (Req_dec (RiemannInt pr) I) as [|Hne]; auto. exfalso. set (e := Rabs (RiemannInt pr - I) / 4).
  assert (He: 0 < e) by (unfold e; assert (0 < Rabs (RiemannInt pr - I)) by (apply Rabs_pos_lt; lra); lra).
  destruct (riemann_approx f a b pr e Hab He) as (phi & psi & A1 & A2 & A3). destruct (H e He) as (phi' & psi' & B1 & B2 & B3).
  pose proof (step_close a b phi phi' psi psi' f Hab A1 B1) as C.
  assert (T: Rabs (RiemannInt pr - I) < 4 * e); [|unfold e in T; lra].
  apply Rabs_def2 in A3. apply Rabs_def2 in B3.
  assert (C': - (2 * e) < RiemannInt_SF phi - RiemannInt_SF phi' < 2 * e).
  { assert (C2: Rabs (RiemannInt_SF phi - RiemannInt_SF phi') < 2 * e) by lra. apply Rabs_def2 in C2. lra. }
  apply Rabs_def1; lra.
Qed.

(** * Substitution *)
Section Sub.
Variables (m s : R).
Hypothesis Hs : 0 < s.
Let T (y : R) : R := m + s * y.
Lemma pos_map l i : (i < length l)%nat -> pos_Rl (map T l) i = T (pos_Rl l i).
Proof. revert i. induction l as [|x l IH]; intros [|i] H; cbn [length map pos_Rl] in *; auto; try lia. apply IH. lia. Qed.
Lemma int_map lf : forall l, Int_SF lf (map T l) = s * Int_SF lf l.
Proof.
  induction lf as [|x lf IH]; intros [|y [|z l]]; cbn [map Int_SF]; try ring. change (T z :: map T l) with (map T (z :: l)). rewrite IH. unfold T. ring.
Qed.
Lemma sub_adapted f u v l lf : u <= v -> adapted_couple f u v l lf -> adapted_couple (fun x => f ((x - m) / s)) (T u) (T v) (map T l) lf.
Proof.
  intros Huv (O & P0 & P1 & Len & C). assert (HL: (0 < length l)%nat) by lia. assert (Tuv: T u <= T v) by (unfold T; nra).
  split; [|split; [|split; [|split]]].
  - intros i Hi. rewrite map_length in Hi. rewrite !pos_map by lia. specialize (O i Hi). unfold T. nra.
  - rewrite pos_map, P0, !Rmin_left by auto. reflexivity.
  - rewrite map_length, pos_map, P1, !Rmax_right by (auto; lia). reflexivity.
  - rewrite map_length. auto.
  - intros i Hi. rewrite map_length in Hi. rewrite !pos_map by lia. intros x [H1 H2]. apply (C i Hi). unfold T in *. split.
    + apply (Rmult_lt_reg_l s); auto. replace (s * ((x - m) / s)) with (x - m) by (field; lra). lra.
    + apply (Rmult_lt_reg_l s); auto. replace (s * ((x - m) / s)) with (x - m) by (field; lra). lra.
Qed.
Lemma sub_step u v (phi : StepFun u v) : u <= v -> exists phi' : StepFun (T u) (T v), (forall x, phi' x = phi ((x - m) / s)) /\ RiemannInt_SF phi' = s * RiemannInt_SF phi.
Proof.
  intros Huv. assert (Tuv: T u <= T v) by (unfold T; nra).
  pose proof (sub_adapted phi u v (subdivision phi) (subdivision_val phi) Huv (StepFun_P1 phi)) as A.
  exists (mkStepFun (existT _ (map T (subdivision phi)) (existT _ (subdivision_val phi) A))). split; [reflexivity|].
  unfold RiemannInt_SF. destruct (Rle_dec (T u) (T v)); [|lra]. destruct (Rle_dec u v); [|lra]. apply int_map.
Qed.
Lemma sub_step_t u v (phi : StepFun u v) : u <= v -> { phi' : StepFun (T u) (T v) | (forall x, phi' x = phi ((x - m) / s)) /\ RiemannInt_SF phi' = s * RiemannInt_SF phi }.
Proof.
  intros Huv. assert (Tuv: T u <= T v) by (unfold T; nra).
  pose proof (sub_adapted phi u v (subdivision phi) (subdivision_val phi) Huv (StepFun_P1 phi)) as A.
  exists (mkStepFun (existT _ (map T (subdivision phi)) (existT _ (subdivision_val phi) A))). split; [reflexivity|].
  unfold RiemannInt_SF. destruct (Rle_dec (T u) (T v)); [|lra]. destruct (Rle_dec u v); [|lra]. apply int_map.
Qed.
Lemma T_inv x : T ((x - m) / s) = x.
Proof. unfold T. field. lra. Qed.
Lemma inv_between u v x : T u <= x <= T v -> u <= (x - m) / s <= v.
Proof.
  unfold T. intros H. assert (s * ((x - m) / s) = x - m) by (field; lra). split; apply (Rmult_le_reg_l s); auto; lra.
Qed.
Lemma sub_integrable f u v : u <= v -> Riemann_integrable f u v -> Riemann_integrable (fun x => f ((x - m) / s)) (T u) (T v).
Proof.
  intros Huv pr eps. assert (Tuv: T u <= T v) by (unfold T; nra). assert (He: 0 < eps / s) by (apply Rdiv_lt_0_compat; [apply (cond_pos eps)|auto]).
  destruct (pr (mkposreal _ He)) as (phi & psi & H1 & H2). destruct (sub_step_t u v phi Huv) as (phi' & P1 & _). destruct (sub_step_t u v psi Huv) as (psi' & Q1 & Q2).
  exists phi', psi'. split.
  - intros t Ht. rewrite Rmin_left, Rmax_right in Ht by lra. rewrite P1, Q1. apply H1. rewrite Rmin_left, Rmax_right by lra. apply inv_between; auto.
  - rewrite Q2, Rabs_mult, (Rabs_right s) by lra. cbn [pos] in H2. apply (Rmult_lt_compat_l s) in H2; auto. replace (s * (eps / s)) with (pos eps) in H2 by (field; lra). exact H2.
Qed.
Lemma sub_value f u v (pr : Riemann_integrable f u v) (pr' : Riemann_integrable (fun x => f ((x - m) / s)) (T u) (T v)) : u <= v -> RiemannInt pr' = s * RiemannInt pr.
Proof.
  intros Huv. assert (Tuv: T u <= T v) by (unfold T; nra). apply riemann_char; auto. intros eps He.
  destruct (riemann_approx f u v pr (eps / s) Huv ltac:(apply Rdiv_lt_0_compat; auto)) as (phi & psi & A1 & A2 & A3).
  destruct (sub_step u v phi Huv) as (phi' & P1 & P2). destruct (sub_step u v psi Huv) as (psi' & Q1 & Q2). exists phi', psi'. split; [|split].
  - intros t Ht. rewrite P1, Q1. apply A1. apply inv_between; auto.
  - rewrite Q2. apply (Rmult_lt_compat_l s) in A2; auto. replace (s * (eps / s)) with eps in A2 by (field; lra). exact A2.
  - rewrite P2, <- Rmult_minus_distr_l, Rabs_mult, (Rabs_right s) by lra. apply (Rmult_lt_compat_l s) in A3; auto. replace (s * (eps / s)) with eps in A3 by (field; lra). exact A3.
Qed.

Theorem improper_sub f a : improper f a -> improper (fun x => / s * f ((x - m) / s)) a.
Proof.
  intros H. replace a with (/ s * (s * a)) by (field; lra). apply (li_scal _ improper_linear). destruct H as (pr & H).
  assert (I0: forall U V, U <= V -> Riemann_integrable (fun x => f ((x - m) / s)) U V).
  { intros U V HUV. rewrite <- (T_inv U), <- (T_inv V). apply sub_integrable; [|apply pr]. apply Rmult_le_compat_r; [left; apply Rinv_0_lt_compat; auto|lra]. }
  assert (I: forall U V, Riemann_integrable (fun x => f ((x - m) / s)) U V).
  { intros U V. destruct (Rle_dec U V); [auto|]. apply RiemannInt_P1. apply I0. lra. }
  exists I. intros eps He. destruct (H (eps / s) ltac:(apply Rdiv_lt_0_compat; auto)) as (M & HM).
  exists (Rmax (s * Rabs M + Rabs m) 0). intros U V HU HV. set (u := (U - m) / s). set (v := (V - m) / s).
  pose proof (Rmax_l (s * Rabs M + Rabs m) 0) as B1. pose proof (Rmax_r (s * Rabs M + Rabs m) 0) as B2. pose proof (Rle_abs m). pose proof (Rle_abs (- m)) as Bm. rewrite Rabs_Ropp in Bm. pose proof (Rle_abs M).
  assert (Eu: T u = U) by apply T_inv. assert (Ev: T v = V) by apply T_inv.
  assert (Hu: u <= - M). { apply (Rmult_le_reg_l s); auto. unfold T in Eu. assert (s * M <= s * Rabs M) by (apply Rmult_le_compat_l; lra). nra. }
  assert (Hv: M <= v). { apply (Rmult_le_reg_l s); auto. unfold T in Ev. assert (s * M <= s * Rabs M) by (apply Rmult_le_compat_l; lra). nra. }
  assert (Huv: u <= v). { apply (Rmult_le_reg_l s); auto. unfold T in Eu, Ev. nra. }
  specialize (HM u v Hu Hv). assert (pT: Riemann_integrable (fun x => f ((x - m) / s)) (T u) (T v)) by (rewrite Eu, Ev; apply I).
  assert (E: RiemannInt (I U V) = s * RiemannInt (pr u v)).
  { rewrite <- (sub_value f u v (pr u v) pT Huv). clear - Eu Ev. revert pT. generalize (I U V). rewrite <- Eu, <- Ev. intros p q. apply RiemannInt_P5. }
  rewrite E, <- Rmult_minus_distr_l, Rabs_mult, (Rabs_right s) by lra. apply (Rmult_lt_compat_l s) in HM; auto. replace (s * (eps / s)) with eps in HM by (field; lra). exact HM.
Qed.
End Sub.
