(** Forward substitution, iterated integrals over vectors, and the change of variables from noise to samples. *)
From Coq Require Import List Arith Lia Bool Reals Lra FunctionalExtensionality.
Import ListNotations.
From Verif Require Import Base RSum Num Tensor Prob Mv Density Gauss Integral Affine MvNormal.
Local Open Scope R_scope.

(** * Integrals over vectors, coordinate by coordinate *)
Definition put (z : nat -> R) (i : nat) (x : R) : nat -> R := fun j => if (j =? i)%nat then x else z j.
(** Coordinates i, ..., i+n-1 of [z] vary; coordinate [i] is the outermost integral. *)
Fixpoint coords (n i : nat) (z : nat -> R) (h : (nat -> R) -> R) (a : R) : Prop :=
  match n with
  | O => a = h z
  | S n' => exists g, (forall x, coords n' (S i) (put z i x) h (g x)) /\ improper g a
  end.
(** The integral over vectors of length [k]; the other coordinates are zero. *)
Definition vintegral (k : nat) (h : (nat -> R) -> R) (a : R) : Prop := coords k 0 (fun _ => 0) h a.

Lemma coords_ext n : forall i z h h' a, (forall z', (forall j, (j < i)%nat -> z' j = z j) -> h z' = h' z') -> coords n i z h a -> coords n i z h' a.
Proof.
  induction n as [|n IH]; intros i z h h' a E; cbn [coords].
  - intros ->. apply E. auto.
  - intros (g & H1 & H2). exists g. split; auto. intros x. apply (IH _ _ h); auto. intros z' Hz. apply E. intros j Hj. rewrite Hz by lia. unfold put. destruct (Nat.eqb_spec j i); [lia|auto].
Qed.
Lemma coords_plus n : forall i z h h' a b, coords n i z h a -> coords n i z h' b -> coords n i z (fun v => h v + h' v) (a + b).
Proof.
  induction n as [|n IH]; intros i z h h' a b; cbn [coords]; [intros -> ->; auto|].
  intros (g & H1 & H2) (g' & H3 & H4). exists (fun x => g x + g' x). split; [intros x; apply IH; auto|]. apply (li_plus _ improper_linear); auto.
Qed.
Lemma coords_scal n : forall c i z h a, coords n i z h a -> coords n i z (fun v => c * h v) (c * a).
Proof.
  induction n as [|n IH]; intros c i z h a; cbn [coords]; [intros ->; auto|].
  intros (g & H1 & H2). exists (fun x => c * g x). split; [intros x; apply IH; auto|]. apply (li_scal _ improper_linear); auto.
Qed.
Lemma coords_pos n : forall i z h a, (forall v, 0 <= h v) -> coords n i z h a -> 0 <= a.
Proof.
  induction n as [|n IH]; intros i z h a Hp; cbn [coords]; [intros ->; auto|].
  intros (g & H1 & H2). apply (li_pos _ improper_linear g); auto. intros x. apply (IH _ _ h _ Hp (H1 x)).
Qed.
Lemma coords_unique n : forall i z h a b, coords n i z h a -> coords n i z h b -> a = b.
Proof.
  induction n as [|n IH]; intros i z h a b; cbn [coords]; [congruence|].
  intros (g & H1 & H2) (g' & H3 & H4). apply (li_unique _ improper_linear g); auto. apply (li_ext _ improper_linear g'); auto. intros x. apply (IH _ _ _ _ _ (H3 x) (H1 x)).
Qed.
Lemma vintegral_linear k : linear_integral (vintegral k).
Proof.
  split; unfold vintegral; intros.
  - apply (coords_ext _ _ _ f); auto.
  - apply coords_plus; auto.
  - apply coords_scal; auto.
  - eapply coords_pos; eauto.
  - eapply coords_unique; eauto.
Qed.

(** * Forward substitution *)
Section Tri.
Variable L : nat -> nat -> R.
Lemma solve_S b n i : solve L b (S n) i = if (i =? n)%nat then (b n - rsum n (fun j => L n j * solve L b n j)) / L n n else solve L b n i.
Proof. reflexivity. Qed.
Lemma solve_stable b n m i : (i < n)%nat -> (n <= m)%nat -> solve L b m i = solve L b n i.
Proof. intros Hi. induction 1 as [|m Hm IH]; auto. rewrite solve_S. destruct (Nat.eqb_spec i m); [lia|auto]. Qed.
Lemma solve_ext b b' n : (forall i, (i < n)%nat -> b i = b' i) -> forall i, solve L b n i = solve L b' n i.
Proof.
  induction n as [|n IH]; intros H i; auto. rewrite !solve_S, H by lia. rewrite (rsum_ext n _ (fun j => L n j * solve L b' n j)) by (intros; rewrite IH; auto).
  rewrite IH by auto. auto.
Qed.
Variable k : nat.
Hypothesis HL : lower_cholesky k L.
(** Row [i] of a lower triangular matrix only uses the coordinates up to [i]. *)
Lemma tri_row i w : (i < k)%nat -> rsum k (fun j => L i j * w j) = rsum i (fun j => L i j * w j) + L i i * w i.
Proof.
  intros Hi. replace (rsum k) with (rsum (S i + (k - S i))) by (f_equal; lia). rewrite rsum_add, rsum_S.
  rewrite (rsum_ext (k - S i) _ (fun _ => 0)); [rewrite rsum_zero; ring|]. intros j Hj. destruct HL as [H1 _]. rewrite H1 by lia. ring.
Qed.
Lemma solve_row b n i : (i < n)%nat -> (n <= k)%nat -> rsum i (fun j => L i j * solve L b n j) + L i i * solve L b n i = b i.
Proof.
  intros Hi Hn. rewrite (solve_stable b (S i) n i) by lia. rewrite solve_S, Nat.eqb_refl.
  rewrite (rsum_ext i _ (fun j => L i j * solve L b i j)) by (intros j Hj; rewrite (solve_stable b i n j) by lia; auto).
  destruct HL as [_ H2]. specialize (H2 i ltac:(lia)). field. lra.
Qed.
Lemma solve_solves b i : (i < k)%nat -> rsum k (fun j => L i j * solve L b k j) = b i.
Proof. intros Hi. rewrite tri_row by auto. apply solve_row; auto. Qed.
Lemma solve_unique b w : (forall i, (i < k)%nat -> rsum k (fun j => L i j * w j) = b i) -> forall i, (i < k)%nat -> w i = solve L b k i.
Proof.
  intros H i. induction i as [i IH] using lt_wf_ind. intros Hi. pose proof (H i Hi) as E. rewrite tri_row in E by auto.
  pose proof (solve_row b k i Hi (le_n k)) as E'. rewrite (rsum_ext i _ (fun j => L i j * solve L b k j)) in E by (intros j Hj; rewrite IH by lia; auto).
  destruct HL as [_ H2]. specialize (H2 i Hi). apply (Rmult_eq_reg_l (L i i)); lra.
Qed.
End Tri.
Lemma tril_ok k dl off : lower_cholesky k (scale_tril dl off).
Proof.
  unfold scale_tril. split.
  - intros i j _ _ H. destruct (Nat.eqb_spec i j), (Nat.ltb_spec j i); try lia. lra.
  - intros i _. rewrite Nat.eqb_refl, Nat.ltb_irrefl. pose proof (exp_pos (dl i)). lra.
Qed.

(** * The density as a product *)
Section Density.
Variables (k : nat) (mu : nat -> R) (L : nat -> nat -> R).
Hypothesis HL : lower_cholesky k L.
Let z (x : nat -> R) : nat -> R := solve L (fun i => x i - mu i) k.
Lemma rprod_exp n f : rprod n (fun i => exp (f i)) = exp (rsum n f).
Proof. induction n as [|n IH]; [rewrite rprod_0, rsum_0, exp_0; auto|]. rewrite rprod_S, rsum_S, IH, exp_plus. auto. Qed.
Lemma std_exp y : normal_pdf 0 1 y = exp (- (1 / 2) * (ln (2 * PI) + y ^ 2)).
Proof.
  unfold normal_pdf. pose proof PI_RGT_0. rewrite Rmult_1_l. replace (- (1 / 2) * (ln (2 * PI) + y ^ 2)) with (- (1 / 2 * ln (2 * PI)) + - (y - 0) ^ 2 / (2 * 1 ^ 2)) by field.
  rewrite exp_plus, exp_Ropp. f_equal. f_equal. replace (1 / 2 * ln (2 * PI)) with (ln (sqrt (2 * PI))); [rewrite exp_ln; auto; apply sqrt_lt_R0; lra|].
  rewrite <- Rpower_sqrt by lra. unfold Rpower. rewrite ln_exp. field.
Qed.
Lemma density_prod x : pval (mvn_lp k mu L x) = rprod k (fun i => / L i i * normal_pdf 0 1 (z x i)).
Proof.
  unfold mvn_lp. cbn [pval]. fold (z x).
  assert (G: forall n, (n <= k)%nat -> rprod n (fun i => / L i i * normal_pdf 0 1 (z x i)) = exp (- (1 / 2) * (INR n * ln (2 * PI) + rsum n (fun i => z x i ^ 2)) - rsum n (fun i => ln (L i i)))).
  { induction n as [|n IH]; intros Hn; [rewrite rprod_0, !rsum_0; cbn [INR]; rewrite <- exp_0; f_equal; ring|].
    rewrite rprod_S, !rsum_S, IH, std_exp, S_INR by lia. destruct HL as [_ H2]. specialize (H2 n ltac:(lia)).
    rewrite <- (exp_ln (/ L n n)) by (apply Rinv_0_lt_compat; auto). rewrite ln_Rinv by auto. rewrite <- !exp_plus. f_equal. field. }
  rewrite G by lia. reflexivity.
Qed.
Lemma noise_coords e x i : (i < k)%nat -> (forall j, (j < i)%nat -> x j = mvn_rsample k mu L e j) ->
  forall y, let m := mu i + rsum i (fun j => L i j * e j) in mvn_rsample k mu L (put e i y) i = m + L i i * y.
Proof.
  intros Hi Hx y m. unfold mvn_rsample. rewrite (tri_row L k HL i) by auto. rewrite (rsum_ext i _ (fun j => L i j * e j)).
  - unfold put at 1. rewrite Nat.eqb_refl. unfold m. ring.
  - intros j Hj. unfold put. destruct (Nat.eqb_spec j i); [lia|auto].
Qed.
Lemma rsample_prefix e e' i : (i < k)%nat -> (forall j, (j <= i)%nat -> e j = e' j) -> mvn_rsample k mu L e i = mvn_rsample k mu L e' i.
Proof.
  intros Hi H. unfold mvn_rsample. rewrite !(tri_row L k HL i) by auto. rewrite (rsum_ext i _ (fun j => L i j * e' j)) by (intros; rewrite H by lia; auto). rewrite H by lia. auto.
Qed.
(** If the noise [e] has the sample [x] then forward substitution recovers it. *)
Lemma solve_rsample e x : (forall i, (i < k)%nat -> x i = mvn_rsample k mu L e i) -> forall i, (i < k)%nat -> z x i = e i.
Proof.
  intros H i Hi. symmetry. apply (solve_unique L k HL); auto. intros j Hj. rewrite H by auto. unfold mvn_rsample. ring.
Qed.
Variable h : (nat -> R) -> R.
Hypothesis Hh : forall x y, (forall i, (i < k)%nat -> x i = y i) -> h x = h y.
Let HE (e : nat -> R) : R := h (mvn_rsample k mu L e) * rprod k (fun i => normal_pdf 0 1 (e i)).
Let HX (x : nat -> R) : R := h x * pval (mvn_lp k mu L x).
Lemma change n : forall i e x a, (i + n = k)%nat -> (forall j, (j < i)%nat -> x j = mvn_rsample k mu L e j) ->
  coords n i e HE a -> coords n i x HX (a * rprod i (fun j => / L j j)).
Proof.
  induction n as [|n IH]; intros i e x a Hk Hx; cbn [coords].
  - intros ->. assert (i = k) by lia. subst i. unfold HE, HX. rewrite density_prod. rewrite (Hh x (mvn_rsample k mu L e)) by auto.
    rewrite (rprod_ext k (fun i => / L i i * normal_pdf 0 1 (z x i)) (fun i => / L i i * normal_pdf 0 1 (e i))).
    + rewrite rprod_mult. ring.
    + intros i Hi. rewrite (solve_rsample e x Hx i Hi). auto.
  - intros (g & H1 & H2). set (m := mu i + rsum i (fun j => L i j * e j)). assert (Hi: (i < k)%nat) by lia. pose proof (proj2 HL i Hi) as Hs.
    exists (fun X => rprod i (fun j => / L j j) * (/ L i i * g ((X - m) / L i i))). split.
    + intros X. set (y := (X - m) / L i i). replace (rprod i (fun j => / L j j) * (/ L i i * g y)) with (g y * rprod (S i) (fun j => / L j j)) by (rewrite rprod_S; ring).
      apply (IH (S i) (put e i y) (put x i X)); [lia| |apply H1]. intros j Hj. unfold put at 1. destruct (Nat.eqb_spec j i) as [->|Hj'].
      * rewrite (noise_coords e x i Hi Hx y). fold m. unfold y. field. lra.
      * rewrite Hx by lia. apply rsample_prefix; [lia|]. intros j' Hj2. unfold put. destruct (Nat.eqb_spec j' i); [lia|auto].
    + rewrite Rmult_comm. apply (li_scal _ improper_linear). apply improper_sub; auto.
Qed.
Theorem sample_integral a : vintegral k (fun e => h (mvn_rsample k mu L e) * rprod k (fun i => normal_pdf 0 1 (e i))) a -> vintegral k (fun x => h x * pval (mvn_lp k mu L x)) a.
Proof.
  intros H. apply (change k 0 (fun _ => 0) (fun _ => 0) a) in H; auto; [|intros; lia]. rewrite rprod_0, Rmult_1_r in H. exact H.
Qed.
End Density.

(** The noise has total mass one. *)
Lemma noise_mass k n : forall i e, (i + n = k)%nat -> coords n i e (fun e => rprod k (fun j => normal_pdf 0 1 (e j))) (rprod i (fun j => normal_pdf 0 1 (e j))).
Proof.
  induction n as [|n IH]; intros i e Hk; cbn [coords]; [replace i with k by lia; auto|].
  exists (fun x => rprod i (fun j => normal_pdf 0 1 (e j)) * normal_pdf 0 1 x). split.
  - intros x. replace (rprod i (fun j => normal_pdf 0 1 (e j)) * normal_pdf 0 1 x) with (rprod (S i) (fun j => normal_pdf 0 1 (put e i x j))); [apply IH; lia|].
    rewrite rprod_S. unfold put at 2. rewrite Nat.eqb_refl. f_equal. apply rprod_ext. intros j Hj. unfold put. destruct (Nat.eqb_spec j i); [lia|auto].
  - set (P := rprod i _). pose proof (li_scal _ improper_linear P _ _ (normal_mass 0 1 ltac:(lra))) as H. rewrite Rmult_1_r in H. exact H.
Qed.
Theorem mvn_mass k mu L : lower_cholesky k L -> vintegral k (fun x => pval (mvn_lp k mu L x)) 1.
Proof.
  intros HL. apply (li_ext _ (vintegral_linear k) (fun x => 1 * pval (mvn_lp k mu L x))); [intros; ring|].
  apply (sample_integral k mu L HL (fun _ => 1)); auto. apply (li_ext _ (vintegral_linear k) (fun e => rprod k (fun j => normal_pdf 0 1 (e j)))); [intros; ring|].
  pose proof (noise_mass k k 0 (fun _ => 0) eq_refl) as H. rewrite rprod_0 in H. exact H.
Qed.
