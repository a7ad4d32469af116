(** The derivative of the logarithm of a network's value along a curve of parameters. *)
From Coq Require Import List Arith Lia Bool ZArith Reals Lra FunctionalExtensionality.
Import ListNotations.
From Verif Require Import Base RSum Num Tensor Prob Layers Circuit Net RefFwd RefPerturb.
Local Open Scope R_scope.

Section At.
Variable t0 : R.
(** [f] is positive-valued in all uses; [l] is the derivative of its logarithm. *)
Definition ld (f : R -> R) (l : R) : Prop := derivable_pt_lim f t0 (f t0 * l).

Lemma dlim_ext (f g : R -> R) d : (forall t, f t = g t) -> derivable_pt_lim f t0 d -> derivable_pt_lim g t0 d.
Proof. intros H. replace g with f; auto. apply functional_extensionality. auto. Qed.
Lemma dlim_eq (f : R -> R) d d' : d = d' -> derivable_pt_lim f t0 d -> derivable_pt_lim f t0 d'.
Proof. intros <-; auto. Qed.
Lemma ld_ext f g l : (forall t, f t = g t) -> ld f l -> ld g l.
Proof. intros H. replace g with f; auto. apply functional_extensionality. auto. Qed.
Lemma ld_eq f l l' : l = l' -> ld f l -> ld f l'.
Proof. intros <-; auto. Qed.
Lemma ld_const c : ld (fun _ => c) 0.
Proof. unfold ld. rewrite Rmult_0_r. apply derivable_pt_lim_const. Qed.
Lemma ld_mult f g a b : ld f a -> ld g b -> ld (fun t => f t * g t) (a + b).
Proof.
  unfold ld. intros H H'. eapply dlim_eq; [|apply (derivable_pt_lim_mult _ _ _ _ _ H H')]. unfold mult_fct. ring.
Qed.
Lemma dlim_rsum n (f : nat -> R -> R) d : (forall k, (k < n)%nat -> derivable_pt_lim (f k) t0 (d k)) -> derivable_pt_lim (fun t => rsum n (fun k => f k t)) t0 (rsum n d).
Proof.
  induction n as [|n IH]; intros H.
  - eapply dlim_ext; [|eapply dlim_eq; [|apply (derivable_pt_lim_const 0)]]; [intros t; rewrite rsum_0; reflexivity|rewrite rsum_0; reflexivity].
  - apply (dlim_ext (fun t => rsum n (fun k => f k t) + f n t)); [intros t; symmetry; apply (rsum_S n (fun k => f k t))|]. rewrite rsum_S.
    apply (derivable_pt_lim_plus (fun t => rsum n (fun k => f k t)) (f n)); [apply IH; intros; apply H; lia|apply H; lia].
Qed.
Lemma ld_rsum n (f : nat -> R -> R) l : 0 < rsum n (fun k => f k t0) -> (forall k, (k < n)%nat -> ld (f k) (l k)) ->
  ld (fun t => rsum n (fun k => f k t)) (rsum n (fun k => f k t0 / rsum n (fun k => f k t0) * l k)).
Proof.
  intros P H. unfold ld. eapply dlim_eq; [|apply dlim_rsum; exact H]. rewrite <- rsum_scal_l. apply rsum_ext. intros k Hk. field. lra.
Qed.
Lemma ld_lprod {A} (ks : list A) (f : A -> R -> R) l : (forall d, In d ks -> ld (f d) (l d)) -> ld (fun t => lprod (fun d => f d t) ks) (lsum l ks).
Proof.
  induction ks as [|d ks IH]; intros H; cbn [lprod lsum]; [apply ld_const|]. apply (ld_mult (f d)); [apply H; left; auto|apply IH; intros; apply H; right; auto].
Qed.
Lemma ld_rprod n (f : nat -> R -> R) l : (forall d, (d < n)%nat -> ld (f d) (l d)) -> ld (fun t => rprod n (fun d => f d t)) (rsum n l).
Proof. intros H. unfold rprod, rsum. apply ld_lprod. intros d Hd. apply H. apply in_seq0. auto. Qed.
Lemma ld_exp f d : derivable_pt_lim f t0 d -> ld (fun t => exp (f t)) d.
Proof. intros H. unfold ld. apply (derivable_pt_lim_comp f exp t0 d (exp (f t0)) H (derivable_pt_lim_exp (f t0))). Qed.
Lemma ld_inv f l : f t0 <> 0 -> ld f l -> ld (fun t => / f t) (- l).
Proof.
  intros P H. unfold ld in *. eapply dlim_ext; [|eapply dlim_eq; [|apply (derivable_pt_lim_div (fun _ => 1) f t0 0 _ (derivable_pt_lim_const 1 t0) H P)]].
  - intros t. unfold div_fct, Rdiv. ring.
  - unfold Rsqr. field. auto.
Qed.
Lemma ld_ln f l : 0 < f t0 -> ld f l -> derivable_pt_lim (fun t => ln (f t)) t0 l.
Proof.
  intros P H. eapply dlim_eq; [|apply (derivable_pt_lim_comp f ln t0 _ (/ f t0) H (derivable_pt_lim_ln _ P))]. field. lra.
Qed.
Lemma ld_softmax n (f : nat -> R -> R) d i : (i < n)%nat -> (forall k, (k < n)%nat -> derivable_pt_lim (f k) t0 (d k)) ->
  ld (fun t => rsoftmax n (fun k => f k t) i) (d i - rsum n (fun k => rsoftmax n (fun k => f k t0) k * d k)).
Proof.
  intros Hi H. unfold rsoftmax.
  assert (P: 0 < rsum n (fun k => exp (f k t0))) by (apply rsumexp_pos; lia).
  apply (ld_mult (fun t => exp (f i t))); [apply ld_exp; auto|]. apply ld_inv; [lra|].
  apply (ld_rsum n (fun k t => exp (f k t))); auto. intros k Hk. apply ld_exp. auto.
Qed.

(** ** Layers *)
Record udiff (Rn : nat) (U : R -> ulayer) (th : nat -> nat -> nat -> nat -> R) : Prop := {
  ud_Din : forall t, uDin (U t) = uDin (U t0); ud_Dout : forall t, uDout (U t) = uDout (U t0);
  ud_Sin : forall t, uSin (U t) = uSin (U t0); ud_Sout : forall t, uSout (U t) = uSout (U t0); ud_K : forall t, uK (U t) = uK (U t0);
  ud_kids : forall t, ukids (U t) = ukids (U t0); ud_sel : forall t, usel (U t) = usel (U t0);
  ud_W : forall d o r k, (d < uDout (U t0))%nat -> (o < uSout (U t0))%nat -> (r < Rn)%nat -> (k < uK (U t0))%nat ->
    ld (fun t => uW (U t) d o r k) (th d o r k - rsum (uK (U t0)) (fun j => uW (U t0) d o r j * th d o r j)) }.
Definition vdiff (D S Rn : nat) (v : R -> vals) (la : vals) : Prop :=
  forall d s r, (d < D)%nat -> (s < S)%nat -> (r < Rn)%nat -> ld (fun t => v t d s r) (la d s r).
(** Logarithmic derivatives of the nodes of a layer *)
Definition ula (U : ulayer) (v : vals) (th : nat -> nat -> nat -> nat -> R) (la : vals) : vals := fun d o r =>
  rsum (uK U) (fun k => upost U v d o r k * (th d o r k - rsum (uK U) (fun j => uW U d o r j * th d o r j) + lsum (fun d' => la d' (usel U d o k d') r) (ukids U d))).

Lemma ueval_diff Rn U th v la : uwf Rn (U t0) -> udiff Rn U th -> vpos (uDin (U t0)) (uSin (U t0)) Rn (v t0) ->
  vdiff (uDin (U t0)) (uSin (U t0)) Rn v la -> vdiff (uDout (U t0)) (uSout (U t0)) Rn (fun t => ueval (U t) (v t)) (ula (U t0) (v t0) th la).
Proof.
  intros Hw HU Hp H d o r Hd Ho Hr. unfold ueval, ula.
  pose proof (ueval_pos Rn (U t0) (v t0) Hw Hp d o r Hd Ho Hr) as P. unfold ueval in P.
  apply (ld_ext (fun t => rsum (uK (U t0)) (fun k => uW (U t) d o r k * lprod (fun d' => v t d' (usel (U t0) d o k d') r) (ukids (U t0) d)))).
  { intros t. rewrite (ud_K _ _ _ HU t). unfold uprod. rewrite (ud_kids _ _ _ HU t), (ud_sel _ _ _ HU t). reflexivity. }
  eapply ld_eq; [|apply ld_rsum; [exact P|]].
  - cbv beta. apply rsum_ext. intros k Hk. unfold upost, uprod, ueval. reflexivity.
  - intros k Hk. cbv beta. apply (ld_mult (fun t => uW (U t) d o r k)); [apply (ud_W _ _ _ HU); auto|].
    apply (ld_lprod (ukids (U t0) d) (fun d' t => v t d' (usel (U t0) d o k d') r)). intros d' Hd'. apply H; auto.
    + apply (uw_kids _ _ Hw) in Hd'; tauto.
    + apply (uw_sel _ _ Hw); auto.
Qed.
Fixpoint chain_diff (Rn : nat) (us : list (R -> ulayer)) (ths : list (nat -> nat -> nat -> nat -> R)) : Prop :=
  match us, ths with
  | [], [] => True
  | U :: us', th :: ths' => udiff Rn U th /\ chain_diff Rn us' ths'
  | _, _ => False
  end.
Fixpoint ulas (us : list ulayer) (v : vals) (ths : list (nat -> nat -> nat -> nat -> R)) (la : vals) : vals :=
  match us, ths with
  | U :: us', th :: ths' => ulas us' (ueval U v) ths' (ula U v th la)
  | _, _ => la
  end.
Definition at_ (us : list (R -> ulayer)) (t : R) : list ulayer := map (fun U => U t) us.
Lemma evals_diff Rn us : forall ths D S D' S' v la, uchain Rn (at_ us t0) D S D' S' -> chain_diff Rn us ths ->
  vpos D S Rn (v t0) -> vdiff D S Rn v la -> vdiff D' S' Rn (fun t => evals (at_ us t) (v t)) (ulas (at_ us t0) (v t0) ths la).
Proof.
  induction us as [|U us IH]; intros [|th ths] D S D' S' v la Hc Hl Hv H; try destruct Hl.
  - destruct Hc as (<- & <-). exact H.
  - destruct Hc as (Hw & <- & <- & Hc). cbn [at_ map ulas]. unfold evals. cbn [fold_left].
    apply (IH ths _ _ D' S' (fun t => ueval (U t) (v t)) _ Hc H1); [apply ueval_pos; auto|]. apply (ueval_diff Rn U th v la); auto.
Qed.

(** ** Backward: how much each node counts *)
Definition uback (U : ulayer) (v : vals) (a : vals) : vals := fun d' s r =>
  rsum (uSout U) (fun o => a (upar U d') o r * rsum (uK U) (fun k => upost U v (upar U d') o r k * (if (usel U (upar U d') o k d' =? s)%nat then 1 else 0))).
Fixpoint ubacks (us : list ulayer) (v : vals) (a : vals) : vals :=
  match us with [] => a | U :: us' => uback U v (ubacks us' (ueval U v) a) end.
(** The coefficient of each logit of a layer, [a] being the share of its nodes *)
Definition ucoef (U : ulayer) (v : vals) (a : vals) (d o r k : nat) : R := a d o r * (upost U v d o r k - uW U d o r k).
Fixpoint ucoefs (us : list ulayer) (v : vals) (a : vals) : list (nat -> nat -> nat -> nat -> R) :=
  match us with [] => [] | U :: us' => ucoef U v (ubacks us' (ueval U v) a) :: ucoefs us' (ueval U v) a end.
Definition udot (U : ulayer) (r : nat) (c th : nat -> nat -> nat -> nat -> R) : R :=
  rsum (uDout U) (fun d => rsum (uSout U) (fun o => rsum (uK U) (fun k => c d o r k * th d o r k))).
Fixpoint udots (us : list ulayer) (r : nat) (cs ths : list (nat -> nat -> nat -> nat -> R)) : R :=
  match us, cs, ths with U :: us', c :: cs', th :: ths' => udot U r c th + udots us' r cs' ths' | _, _, _ => 0 end.
Definition vdot (D S r : nat) (a la : vals) : R := rsum D (fun d => rsum S (fun s => a d s r * la d s r)).

Lemma lsum_rsum n (h : nat -> nat -> R) l : lsum (fun d => rsum n (h d)) l = rsum n (fun o => lsum (fun d => h d o) l).
Proof. unfold rsum. apply lsum_swap. Qed.
Lemma ula_back Rn U v th a la r : uwf Rn U -> vpos (uDin U) (uSin U) Rn v -> (r < Rn)%nat ->
  vdot (uDout U) (uSout U) r a (ula U v th la) = udot U r (ucoef U v a) th + vdot (uDin U) (uSin U) r (uback U v a) la.
Proof.
  intros Hw Hv Hr. unfold vdot, udot.
  rewrite (rsum_ext (uDin U) _ (fun d' => rsum (uSout U) (fun o => a (upar U d') o r * rsum (uK U) (fun k => upost U v (upar U d') o r k * la d' (usel U (upar U d') o k d') r)))).
  2:{ intros d' Hd'. pose proof (uw_par _ _ Hw d' Hd') as Hp. unfold uback.
      rewrite (rsum_ext (uSin U) _ (fun s => rsum (uSout U) (fun o => a (upar U d') o r * rsum (uK U) (fun k => upost U v (upar U d') o r k * ((if (s =? usel U (upar U d') o k d')%nat then 1 else 0) * la d' s r))))).
      2:{ intros s Hs. rewrite <- rsum_scal_r. apply rsum_ext. intros o Ho. rewrite Rmult_assoc, <- rsum_scal_r. f_equal. apply rsum_ext. intros k Hk. rewrite (Nat.eqb_sym s). ring. }
      rewrite rsum_swap. apply rsum_ext. intros o Ho. rewrite rsum_scal_l. f_equal. rewrite rsum_swap. apply rsum_ext. intros k Hk. rewrite rsum_scal_l. f_equal.
      apply (rsum_indicator (uSin U) _ (fun s => la d' s r)). apply (uw_sel _ _ Hw); auto. apply (uw_kids _ _ Hw); auto. }
  rewrite <- (usum_kids Rn U) by auto. rewrite <- rsum_plus. apply rsum_ext. intros d Hd.
  rewrite (lsum_ext _ (fun d' => rsum (uSout U) (fun o => a d o r * rsum (uK U) (fun k => upost U v d o r k * la d' (usel U d o k d') r)))).
  2:{ intros d' Hd'. apply (uw_kids _ _ Hw) in Hd' as (_ & <-); auto. }
  rewrite (lsum_rsum (uSout U) (fun d' o => a d o r * rsum (uK U) (fun k => upost U v d o r k * la d' (usel U d o k d') r))).
  rewrite <- rsum_plus. apply rsum_ext. intros o Ho. rewrite lsum_scal_l, (lsum_rsum (uK U) (fun d' k => upost U v d o r k * la d' (usel U d o k d') r)).
  unfold ula, ucoef. set (m := rsum (uK U) (fun j => uW U d o r j * th d o r j)).
  rewrite (rsum_ext (uK U) _ (fun k => upost U v d o r k * th d o r k + - m * upost U v d o r k + upost U v d o r k * lsum (fun d' => la d' (usel U d o k d') r) (ukids U d))) by (intros; ring).
  rewrite !rsum_plus, rsum_scal_l, (upost_sum Rn U v) by auto.
  rewrite (rsum_ext (uK U) (fun k => a d o r * (upost U v d o r k - uW U d o r k) * th d o r k) (fun k => a d o r * (upost U v d o r k * th d o r k) + - a d o r * (uW U d o r k * th d o r k))) by (intros; ring).
  rewrite rsum_plus, !rsum_scal_l. fold m.
  rewrite (rsum_ext (uK U) (fun k => lsum _ _) (fun k => upost U v d o r k * lsum (fun d' => la d' (usel U d o k d') r) (ukids U d))) by (intros; apply lsum_scal_l).
  ring.
Qed.
Lemma ulas_back Rn us : forall ths D S D' S' v la a r, uchain Rn us D S D' S' -> vpos D S Rn v -> (r < Rn)%nat -> List.length ths = List.length us ->
  vdot D' S' r a (ulas us v ths la) = udots us r (ucoefs us v a) ths + vdot D S r (ubacks us v a) la.
Proof.
  induction us as [|U us IH]; intros [|th ths] D S D' S' v la a r Hc Hv Hr Hl; try discriminate Hl.
  - destruct Hc as (<- & <-). cbn [ulas udots ubacks]. lra.
  - destruct Hc as (Hw & <- & <- & Hc). injection Hl as Hl. cbn [ulas ucoefs udots ubacks].
    rewrite (IH ths _ _ D' S' (ueval U v) _ a r Hc) by (auto; apply ueval_pos; auto). rewrite (ula_back Rn) by auto. lra.
Qed.

(** The shares of the nodes of a feature *)
Definition shares (D S Rn : nat) (a : vals) (m : nat -> R) : Prop :=
  (forall d s r, (d < D)%nat -> (s < S)%nat -> (r < Rn)%nat -> 0 <= a d s r) /\ forall d r, (d < D)%nat -> (r < Rn)%nat -> rsum S (fun s => a d s r) = m r.
Lemma upost_nonneg Rn U v d o r k : uwf Rn U -> vpos (uDin U) (uSin U) Rn v -> (d < uDout U)%nat -> (o < uSout U)%nat -> (r < Rn)%nat -> (k < uK U)%nat -> 0 <= upost U v d o r k.
Proof.
  intros Hw Hv Hd Ho Hr Hk. unfold upost. pose proof (ueval_pos Rn U v Hw Hv d o r Hd Ho Hr). pose proof (uw_pos _ _ Hw d o r k Hd Ho Hr Hk).
  assert (0 < uprod U v d o r k) by (apply (uprod_pos Rn); auto). apply Rmult_le_pos; [nra|]. left. apply Rinv_0_lt_compat. auto.
Qed.
Lemma uback_shares Rn U v a m : uwf Rn U -> vpos (uDin U) (uSin U) Rn v -> shares (uDout U) (uSout U) Rn a m -> shares (uDin U) (uSin U) Rn (uback U v a) m.
Proof.
  intros Hw Hv (H1 & H2). split.
  - intros d s r Hd Hs Hr. unfold uback. pose proof (uw_par _ _ Hw d Hd) as Hp. apply rsum_nonneg. intros o Ho. apply Rmult_le_pos; [auto|].
    apply rsum_nonneg. intros k Hk. apply Rmult_le_pos; [apply (upost_nonneg Rn); auto|]. destruct (_ =? _)%nat; lra.
  - intros d r Hd Hr. unfold uback. pose proof (uw_par _ _ Hw d Hd) as Hp. rewrite rsum_swap. rewrite <- (H2 _ r Hp Hr). apply rsum_ext. intros o Ho.
    rewrite rsum_scal_l. rewrite rsum_swap. rewrite (rsum_ext (uK U) _ (upost U v (upar U d) o r)); [rewrite (upost_sum Rn U v) by auto; ring|].
    intros k Hk. rewrite rsum_scal_l. 
    rewrite (rsum_ext (uSin U) _ (fun s => (if (s =? usel U (upar U d) o k d)%nat then 1 else 0) * 1)) by (intros s _; rewrite (Nat.eqb_sym s); ring).
    rewrite rsum_indicator; [ring|]. apply (uw_sel _ _ Hw); auto. apply (uw_kids _ _ Hw); auto.
Qed.
Lemma ubacks_shares Rn us : forall D S D' S' v a m, uchain Rn us D S D' S' -> vpos D S Rn v -> shares D' S' Rn a m -> shares D S Rn (ubacks us v a) m.
Proof.
  induction us as [|U us IH]; intros D S D' S' v a m Hc Hv H.
  - destruct Hc as (<- & <-). exact H.
  - destruct Hc as (Hw & <- & <- & Hc). cbn [ubacks]. apply uback_shares; auto. eapply IH; [exact Hc| |exact H]. apply ueval_pos; auto.
Qed.
(** Coefficients of a layer: bounded by the shares, and without effect on the sum of the weights *)
Definition fair (Rn : nat) (m : nat -> R) (U : ulayer) (c : nat -> nat -> nat -> nat -> R) : Prop :=
  exists a, shares (uDout U) (uSout U) Rn a m /\ forall d o r, (d < uDout U)%nat -> (o < uSout U)%nat -> (r < Rn)%nat ->
    (forall k, (k < uK U)%nat -> Rabs (c d o r k) <= a d o r) /\ rsum (uK U) (c d o r) = 0 /\ rsum (uK U) (fun k => Rabs (c d o r k)) <= 2 * a d o r.
Lemma term_le_sum n (f : nat -> R) i : (i < n)%nat -> (forall k, (k < n)%nat -> 0 <= f k) -> f i <= rsum n f.
Proof. intros Hi H. unfold rsum. apply lsum_term_le; [apply in_seq0; auto|]. intros k Hk. apply H. apply in_seq0; auto. Qed.
Lemma shares_le D S Rn a m d s r : shares D S Rn a m -> (d < D)%nat -> (s < S)%nat -> (r < Rn)%nat -> 0 <= a d s r <= m r.
Proof. intros (H1 & H2) Hd Hs Hr. split; auto. rewrite <- (H2 d r Hd Hr). apply (term_le_sum _ (fun s => a d s r)); auto. Qed.
(** Differences of two probability vectors *)
Lemma diff_abs a p w : 0 <= a -> 0 <= p -> 0 <= w -> Rabs (a * (p - w)) <= a * p + a * w.
Proof. intros. rewrite Rabs_mult, (Rabs_pos_eq a) by auto. assert (Rabs (p - w) <= p + w) by (apply Rabs_le; lra). nra. Qed.
Lemma diff_fair n a (p w : nat -> R) : 0 <= a -> (forall k, (k < n)%nat -> 0 <= p k) -> (forall k, (k < n)%nat -> 0 <= w k) -> rsum n p = 1 -> rsum n w = 1 ->
  (forall k, (k < n)%nat -> Rabs (a * (p k - w k)) <= a) /\ rsum n (fun k => a * (p k - w k)) = 0 /\ rsum n (fun k => Rabs (a * (p k - w k))) <= 2 * a.
Proof.
  intros Ha Hp Hw Sp Sw. split; [|split].
  - intros k Hk. rewrite Rabs_mult, (Rabs_pos_eq a) by auto. pose proof (term_le_sum n p k Hk Hp). pose proof (term_le_sum n w k Hk Hw). specialize (Hp k Hk). specialize (Hw k Hk).
    assert (Rabs (p k - w k) <= 1) by (apply Rabs_le; lra). pose proof (Rabs_pos (p k - w k)). nra.
  - rewrite rsum_scal_l. rewrite (rsum_ext _ _ (fun i => p i + (-1) * w i)) by (intros; ring). rewrite rsum_plus, rsum_scal_l, Sp, Sw. ring.
  - eapply Rle_trans; [apply rsum_le; intros k Hk; apply diff_abs; auto|]. rewrite rsum_plus, !rsum_scal_l, Sp, Sw. lra.
Qed.
Lemma ucoef_fair Rn U v a m : uwf Rn U -> vpos (uDin U) (uSin U) Rn v -> shares (uDout U) (uSout U) Rn a m -> fair Rn m U (ucoef U v a).
Proof.
  intros Hw Hv Ha. exists a. split; auto. intros d o r Hd Ho Hr. apply diff_fair.
  - apply (shares_le _ _ _ _ _ _ _ _ Ha Hd Ho Hr).
  - intros. apply (upost_nonneg Rn); auto.
  - intros. left. apply (uw_pos _ _ Hw); auto.
  - apply (upost_sum Rn); auto.
  - apply (uw_sum _ _ Hw); auto.
Qed.
Fixpoint all_fair (Rn : nat) (m : nat -> R) (us : list ulayer) (cs : list (nat -> nat -> nat -> nat -> R)) : Prop :=
  match us, cs with [], [] => True | U :: us', c :: cs' => fair Rn m U c /\ all_fair Rn m us' cs' | _, _ => False end.
Lemma ucoefs_fair Rn us : forall D S D' S' v a m, uchain Rn us D S D' S' -> vpos D S Rn v -> shares D' S' Rn a m -> all_fair Rn m us (ucoefs us v a).
Proof.
  induction us as [|U us IH]; intros D S D' S' v a m Hc Hv H; [exact I|].
  destruct Hc as (Hw & <- & <- & Hc). assert (Hv': vpos (uDout U) (uSout U) Rn (ueval U v)) by (apply ueval_pos; auto). cbn [ucoefs all_fair]. split.
  - apply ucoef_fair; auto. eapply ubacks_shares; eauto.
  - eapply IH; eauto.
Qed.

(** ** Networks *)
Record ndiff (G : R -> cnet) (us : list (R -> ulayer)) (ths : list (nat -> nat -> nat -> nat -> R)) (thm : nat -> nat -> R) : Prop := {
  nd_F : forall t, nF (G t) = nF (G t0); nd_C : forall t, nC (G t) = nC (G t0); nd_R : forall t, nR (G t) = nR (G t0); nd_group : forall t, ngroup (G t) = ngroup (G t0);
  nd_us : forall t, nls (G t) = at_ us t;
  nd_ls : chain_diff (nR (G t0)) us ths;
  nd_mix : forall y r, (y < nCls (G t0))%nat -> (r < nR (G t0))%nat ->
    ld (fun t => nmix (G t) y r) (thm y r - rsum (nR (G t0)) (fun j => nmix (G t0) y j * thm y j)) }.
(** The share of a repetition *)
Definition npost (G : cnet) (q : leaves) (y r : nat) : R := nmix G y r * evals (nls G) (leafval G q) 0%nat y r / neteval G q y.
Definition ntop (G : cnet) (q : leaves) (y : nat) : vals := fun _ o r => if (o =? y)%nat then npost G q y r else 0.
Definition ncoefs (G : cnet) (q : leaves) (y : nat) : list (nat -> nat -> nat -> nat -> R) := ucoefs (nls G) (leafval G q) (ntop G q y).
Definition nleaf (G : cnet) (q : leaves) (y : nat) (f l r : nat) : R := ubacks (nls G) (leafval G q) (ntop G q y) (ngroup G r f) l r.
Definition ngrad (G : cnet) (q : leaves) (y : nat) (ths : list (nat -> nat -> nat -> nat -> R)) (thm : nat -> nat -> R) (mu : leaves) : R :=
  rsum (nR G) (fun r => udots (nls G) r (ncoefs G q y) ths) + rsum (nR G) (fun r => (npost G q y r - nmix G y r) * thm y r) +
  rsum (nR G) (fun r => rsum (nF G) (fun f => rsum (nC G) (fun c => rsum (nL G) (fun l => nleaf G q y f l r * mu c f l r)))).

Lemma chain_diff_length Rn us : forall ths, chain_diff Rn us ths -> List.length ths = List.length us.
Proof. induction us as [|U us IH]; intros [|th ths] H; try destruct H; cbn; auto. Qed.
Lemma npost_sum G q y : cnet_wf G -> (y < nCls G)%nat -> 0 < neteval G q y -> rsum (nR G) (npost G q y) = 1.
Proof. intros Hw Hy P. unfold npost, Rdiv. rewrite rsum_scal_r. fold (neteval G q y). apply Rinv_r. lra. Qed.
Lemma neteval_diff G us ths thm (q : R -> leaves) mu y : cnet_wf (G t0) -> ndiff G us ths thm -> (y < nCls (G t0))%nat ->
  (forall c f l r, (c < nC (G t0))%nat -> (f < nF (G t0))%nat -> (l < nL (G t0))%nat -> (r < nR (G t0))%nat -> 0 < q t0 c f l r /\ ld (fun t => q t c f l r) (mu c f l r)) ->
  ld (fun t => neteval (G t) (q t) y) (ngrad (G t0) (q t0) y ths thm mu).
Proof.
  intros Hw HN Hy H. pose proof (nw_chain _ Hw) as Hc. rewrite (nd_us _ _ _ _ HN) in Hc.
  assert (Vq: vpos (nD (G t0)) (nL (G t0)) (nR (G t0)) (leafval (G t0) (q t0))) by (apply leafval_pos; intros; apply H; auto).
  assert (P: 0 < neteval (G t0) (q t0) y) by (apply neteval_pos; auto; intros; apply H; auto).
  set (la := fun d l r => rsum (nF (G t0)) (fun f => if (ngroup (G t0) r f =? d)%nat then rsum (nC (G t0)) (fun c => mu c f l r) else 0)).
  assert (Hla: vdiff (nD (G t0)) (nL (G t0)) (nR (G t0)) (fun t => leafval (G t) (q t)) la).
  { intros d l r Hd Hl Hr. unfold leafval, la. eapply ld_ext; [|apply (ld_rprod (nF (G t0)) (fun f t => if (ngroup (G t0) r f =? d)%nat then rprod (nC (G t0)) (fun c => q t c f l r) else 1))].
    - intros t. cbv beta. rewrite (nd_F _ _ _ _ HN t), (nd_C _ _ _ _ HN t), (nd_group _ _ _ _ HN t). reflexivity.
    - intros f Hf. cbv beta. destruct (_ =? _)%nat; [|apply ld_const]. apply (ld_rprod (nC (G t0)) (fun c t => q t c f l r)). intros c Hc0. apply H; auto. }
  pose proof (evals_diff (nR (G t0)) us ths _ _ _ _ (fun t => leafval (G t) (q t)) la Hc (nd_ls _ _ _ _ HN) Vq Hla) as X.
  rewrite <- (nd_us _ _ _ _ HN) in X. set (top := ulas (nls (G t0)) (leafval (G t0) (q t0)) ths la) in X.
  assert (Y: ld (fun t => neteval (G t) (q t) y) (rsum (nR (G t0)) (fun r => npost (G t0) (q t0) y r * (thm y r - rsum (nR (G t0)) (fun j => nmix (G t0) y j * thm y j) + top 0%nat y r)))).
  { unfold neteval. apply (ld_ext (fun t => rsum (nR (G t0)) (fun r => nmix (G t) y r * evals (at_ us t) (leafval (G t) (q t)) 0%nat y r))).
    - intros t. rewrite (nd_R _ _ _ _ HN t), (nd_us _ _ _ _ HN t). reflexivity.
    - eapply ld_eq; [|apply (ld_rsum (nR (G t0)) (fun r t => nmix (G t) y r * evals (at_ us t) (leafval (G t) (q t)) 0%nat y r))].
      + cbv beta. apply rsum_ext. intros r Hr. unfold npost, neteval. rewrite (nd_us _ _ _ _ HN t0). reflexivity.
      + cbv beta. rewrite <- (nd_us _ _ _ _ HN t0). exact P.
      + intros r Hr. cbv beta. apply (ld_mult (fun t => nmix (G t) y r)); [apply (nd_mix _ _ _ _ HN); auto|]. apply X; auto. }
  eapply ld_eq; [|exact Y]. unfold ngrad. rewrite <- !rsum_plus.
  assert (T: forall r, (r < nR (G t0))%nat -> npost (G t0) (q t0) y r * top 0%nat y r = udots (nls (G t0)) r (ncoefs (G t0) (q t0) y) ths +
     rsum (nF (G t0)) (fun f => rsum (nC (G t0)) (fun c => rsum (nL (G t0)) (fun l => nleaf (G t0) (q t0) y f l r * mu c f l r)))).
  { intros r Hr. rewrite <- (nd_us _ _ _ _ HN) in Hc.
    pose proof (ulas_back (nR (G t0)) (nls (G t0)) ths _ _ _ _ (leafval (G t0) (q t0)) la (ntop (G t0) (q t0) y) r Hc Vq Hr) as B.
    rewrite (nd_us _ _ _ _ HN t0) in B at 1. unfold at_ in B at 1. rewrite map_length in B. specialize (B (chain_diff_length _ _ _ (nd_ls _ _ _ _ HN))). fold top in B.
    unfold vdot in B at 1. rewrite rsum_S, rsum_0, Rplus_0_l in B. unfold ntop in B at 1.
    rewrite (rsum_ext (nCls (G t0)) _ (fun s => (if (s =? y)%nat then 1 else 0) * (npost (G t0) (q t0) y r * top 0%nat s r))) in B by (intros s _; destruct (s =? y)%nat; ring).
    rewrite (rsum_indicator _ y (fun s => npost (G t0) (q t0) y r * top 0%nat s r)) in B by auto. rewrite B. f_equal.
    unfold vdot, la, nleaf. set (a := ubacks _ _ _).
    rewrite (rsum_group (nF (G t0)) (nD (G t0)) (ngroup (G t0) r) (fun f => rsum (nC (G t0)) (fun c => rsum (nL (G t0)) (fun l => a (ngroup (G t0) r f) l r * mu c f l r)))) by (intros; apply (nw_group _ Hw); auto).
    apply rsum_ext. intros d Hd.
    rewrite (rsum_ext (nL (G t0)) _ (fun l => rsum (nF (G t0)) (fun f => if (ngroup (G t0) r f =? d)%nat then rsum (nC (G t0)) (fun c => a d l r * mu c f l r) else 0))).
    2:{ intros l Hl. rewrite <- rsum_scal_l. apply rsum_ext. intros f Hf. destruct (_ =? _)%nat; [rewrite rsum_scal_l; auto|ring]. }
    rewrite rsum_swap. apply rsum_ext. intros f Hf. destruct (Nat.eqb_spec (ngroup (G t0) r f) d) as [->|Hne]; [apply rsum_swap|apply rsum_zero]. }
  set (M := rsum (nR (G t0)) (fun j => nmix (G t0) y j * thm y j)).
  rewrite (rsum_ext (nR (G t0)) (fun r => npost _ _ _ _ * _) (fun r => npost (G t0) (q t0) y r * thm y r + - M * npost (G t0) (q t0) y r + npost (G t0) (q t0) y r * top 0%nat y r)) by (intros; ring).
  rewrite !rsum_plus, rsum_scal_l, npost_sum by auto.
  rewrite (rsum_ext (nR (G t0)) (fun r => (npost _ _ _ _ - _) * _) (fun r => npost (G t0) (q t0) y r * thm y r + -1 * (nmix (G t0) y r * thm y r))) by (intros; ring).
  rewrite rsum_plus, rsum_scal_l. fold M. rewrite (rsum_ext _ _ _ T), rsum_plus. ring.
Qed.

(** Properties of the coefficients *)
Lemma npost_nonneg G q y r : cnet_wf G -> (y < nCls G)%nat -> (r < nR G)%nat ->
  (forall c f l r, (c < nC G)%nat -> (f < nF G)%nat -> (l < nL G)%nat -> (r < nR G)%nat -> 0 < q c f l r) -> 0 <= npost G q y r.
Proof.
  intros Hw Hy Hr H. unfold npost. pose proof (neteval_pos G q y Hw Hy H). pose proof (nw_mix_pos _ Hw y r Hy Hr).
  pose proof (evals_pos (nR G) (nls G) (nD G) (nL G) 1 (nCls G) (leafval G q) (nw_chain _ Hw) (leafval_pos G q H) 0%nat y r ltac:(lia) Hy Hr).
  apply Rmult_le_pos; [nra|]. left. apply Rinv_0_lt_compat. auto.
Qed.
Lemma ntop_shares G q y : cnet_wf G -> (y < nCls G)%nat ->
  (forall c f l r, (c < nC G)%nat -> (f < nF G)%nat -> (l < nL G)%nat -> (r < nR G)%nat -> 0 < q c f l r) -> shares 1 (nCls G) (nR G) (ntop G q y) (npost G q y).
Proof.
  intros Hw Hy H. split.
  - intros d s r _ Hs Hr. unfold ntop. destruct (_ =? _)%nat; [apply npost_nonneg; auto|lra].
  - intros d r _ Hr. unfold ntop. rewrite (rsum_ext _ _ (fun s => (if (s =? y)%nat then 1 else 0) * npost G q y r)) by (intros s _; destruct (s =? y)%nat; ring).
    apply (rsum_indicator _ y (fun _ => npost G q y r)). auto.
Qed.
Lemma ncoefs_fair G q y : cnet_wf G -> (y < nCls G)%nat ->
  (forall c f l r, (c < nC G)%nat -> (f < nF G)%nat -> (l < nL G)%nat -> (r < nR G)%nat -> 0 < q c f l r) -> all_fair (nR G) (npost G q y) (nls G) (ncoefs G q y).
Proof. intros Hw Hy H. apply (ucoefs_fair (nR G) (nls G) _ _ _ _ _ _ _ (nw_chain _ Hw) (leafval_pos G q H)). apply ntop_shares; auto. Qed.
Lemma nleaf_shares G q y f : cnet_wf G -> (y < nCls G)%nat ->
  (forall c f l r, (c < nC G)%nat -> (f < nF G)%nat -> (l < nL G)%nat -> (r < nR G)%nat -> 0 < q c f l r) -> (f < nF G)%nat ->
  (forall l r, (l < nL G)%nat -> (r < nR G)%nat -> 0 <= nleaf G q y f l r) /\ forall r, (r < nR G)%nat -> rsum (nL G) (fun l => nleaf G q y f l r) = npost G q y r.
Proof.
  intros Hw Hy H Hf. destruct (ubacks_shares (nR G) (nls G) _ _ _ _ _ _ _ (nw_chain _ Hw) (leafval_pos G q H) (ntop_shares G q y Hw Hy H)) as (H1 & H2).
  split; intros; [apply H1|apply H2]; auto; apply (nw_group _ Hw); auto.
Qed.
End At.
