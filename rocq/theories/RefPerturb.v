(** How much the value of a network changes when its parameters change. *)
From Coq Require Import List Arith Lia Bool ZArith Reals Lra FunctionalExtensionality.
Import ListNotations.
From Verif Require Import Base RSum Num Tensor Prob Layers Circuit Net RefFwd Leaf Perm RefLeaf TypeChecks Einet RefNet RefEinet Build.
Local Open Scope R_scope.

Lemma exp_le_compat x y : x <= y -> exp x <= exp y.
Proof. intros [H|H]; [left; apply exp_increasing; auto|right; congruence]. Qed.
(** Two positive numbers whose logarithms differ by at most [b] *)
Definition near (b a a' : R) : Prop := a' <= exp b * a /\ a <= exp b * a'.
Lemma near_refl a : near 0 a a.
Proof. unfold near. rewrite exp_0. lra. Qed.
Lemma near_mult b1 b2 a a' c c' : 0 <= a -> 0 <= a' -> 0 <= c -> 0 <= c' -> near b1 a a' -> near b2 c c' -> near (b1 + b2) (a * c) (a' * c').
Proof.
  intros Ha Ha' Hc Hc' (H1 & H2) (H3 & H4). unfold near. rewrite exp_plus. split.
  - replace (exp b1 * exp b2 * (a * c)) with (exp b1 * a * (exp b2 * c)) by ring. apply Rmult_le_compat; auto.
  - replace (exp b1 * exp b2 * (a' * c')) with (exp b1 * a' * (exp b2 * c')) by ring. apply Rmult_le_compat; auto.
Qed.
Lemma near_sum n b f f' : (forall k, (k < n)%nat -> near b (f k) (f' k)) -> near b (rsum n f) (rsum n f').
Proof.
  intros H. unfold near. rewrite <- !rsum_scal_l. split; apply rsum_le; intros k Hk; apply (H k Hk).
Qed.
Lemma near_lprod l (b f f' : nat -> R) : (forall d, In d l -> 0 <= f d /\ 0 <= f' d /\ near (b d) (f d) (f' d)) -> near (lsum b l) (lprod f l) (lprod f' l).
Proof.
  induction l as [|d l IH]; intros H; [apply near_refl|]. cbn [lsum lprod]. destruct (H d (or_introl eq_refl)) as (P & P' & Hn).
  apply near_mult; auto; [| |apply IH; intros d' Hd'; apply H; right; auto].
  - apply lprod_nonneg. intros d' Hd'. apply H. right. auto.
  - apply lprod_nonneg. intros d' Hd'. apply H. right. auto.
Qed.
Lemma near_rprod n (b f f' : nat -> R) : (forall d, (d < n)%nat -> 0 <= f d /\ 0 <= f' d /\ near (b d) (f d) (f' d)) -> near (rsum n b) (rprod n f) (rprod n f').
Proof. intros H. unfold rsum, rprod. apply near_lprod. intros d Hd. apply H. apply in_seq0 in Hd. auto. Qed.
Lemma near_ln b a a' : 0 < a -> 0 < a' -> near b a a' -> Rabs (ln a - ln a') <= b.
Proof.
  intros Ha Ha' (H1 & H2). assert (L: forall x y, 0 < x -> 0 < y -> x <= exp b * y -> ln x <= b + ln y).
  { intros x y Hx Hy H. rewrite <- (ln_exp b) at 1. rewrite <- ln_mult; [|apply exp_pos|auto]. destruct H as [H|H]; [left; apply ln_increasing; auto|right; congruence]. }
  apply L in H1; auto. apply L in H2; auto. apply Rabs_le. lra.
Qed.
Lemma near_softmax n f f' delta i : (i < n)%nat -> (forall k, (k < n)%nat -> Rabs (f k - f' k) <= delta) -> near (2 * delta) (rsoftmax n f i) (rsoftmax n f' i).
Proof.
  intros Hi H.
  assert (E: forall k, (k < n)%nat -> near delta (exp (f k)) (exp (f' k))).
  { intros k Hk. specialize (H k Hk). assert (H0: - delta <= f k - f' k <= delta) by (split; [|]; revert H; unfold Rabs; destruct (Rcase_abs _); lra). unfold near. rewrite <- !exp_plus. split; apply exp_le_compat; lra. }
  pose proof (near_sum n delta _ _ E) as (S1 & S2). destruct (E i Hi) as (E1 & E2).
  assert (P: 0 < rsum n (fun k => exp (f k))) by (apply rsumexp_pos; lia). assert (P': 0 < rsum n (fun k => exp (f' k))) by (apply rsumexp_pos; lia).
  assert (Q: forall x x' s s', 0 < s -> 0 < s' -> 0 < x -> x' <= exp delta * x -> s <= exp delta * s' -> x' / s' <= exp (2 * delta) * (x / s)).
  { intros x x' s s' Hs Hs' Hx Hxx Hss. replace (exp (2 * delta)) with (exp delta * exp delta) by (rewrite <- exp_plus; f_equal; lra).
    apply (Rmult_le_reg_r (s * s')); [nra|]. replace (x' / s' * (s * s')) with (x' * s) by (field; lra).
    replace (exp delta * exp delta * (x / s) * (s * s')) with ((exp delta * x) * (exp delta * s')) by (field; lra).
    pose proof (exp_pos delta). assert (x' * s <= exp delta * x * s) by (apply Rmult_le_compat_r; lra).
    assert (exp delta * x * s <= exp delta * x * (exp delta * s')) by (apply Rmult_le_compat_l; nra). lra. }
  split; apply Q; auto; apply exp_pos.
Qed.

(** ** Layers of circuits *)
(** The same circuit with weights that are [b] apart *)
Record ulike (Rn : nat) (b : R) (U U' : ulayer) : Prop := {
  ul_Din : uDin U' = uDin U; ul_Dout : uDout U' = uDout U; ul_Sin : uSin U' = uSin U; ul_Sout : uSout U' = uSout U; ul_K : uK U' = uK U;
  ul_kids : ukids U' = ukids U; ul_sel : usel U' = usel U;
  ul_W : forall d o r k, (d < uDout U)%nat -> (o < uSout U)%nat -> (r < Rn)%nat -> (k < uK U)%nat -> near b (uW U d o r k) (uW U' d o r k) }.
Fixpoint chain_like (Rn : nat) (bs : list R) (us us' : list ulayer) : Prop :=
  match bs, us, us' with
  | [], [], [] => True
  | b :: bs', U :: us1, U' :: us1' => ulike Rn b U U' /\ chain_like Rn bs' us1 us1'
  | _, _, _ => False
  end.
(** The bound of the nodes above *)
Definition up (b : R) (U : ulayer) (B : nat -> nat -> R) : nat -> nat -> R := fun d r => b + lsum (fun d' => B d' r) (ukids U d).
Fixpoint ups (bs : list R) (us : list ulayer) (B : nat -> nat -> R) : nat -> nat -> R :=
  match bs, us with b :: bs', U :: us' => ups bs' us' (up b U B) | _, _ => B end.
Definition vnear (D S Rn : nat) (B : nat -> nat -> R) (v v' : vals) : Prop :=
  forall d s r, (d < D)%nat -> (s < S)%nat -> (r < Rn)%nat -> near (B d r) (v d s r) (v' d s r).

Lemma ueval_near Rn b U U' B v v' : uwf Rn U -> uwf Rn U' -> ulike Rn b U U' -> vpos (uDin U) (uSin U) Rn v -> vpos (uDin U) (uSin U) Rn v' ->
  vnear (uDin U) (uSin U) Rn B v v' -> vnear (uDout U) (uSout U) Rn (up b U B) (ueval U v) (ueval U' v').
Proof.
  intros Hw Hw' HU Hv Hv' H d o r Hd Ho Hr. destruct HU. unfold ueval, up. rewrite ul_K0. apply near_sum. intros k Hk.
  assert (Hp: forall d', In d' (ukids U d) -> (d' < uDin U)%nat /\ (usel U d o k d' < uSin U)%nat).
  { intros d' Hd'. split; [apply (uw_kids _ _ Hw) in Hd'; tauto|apply (uw_sel _ _ Hw); auto]. }
  apply near_mult.
  - left. apply (uw_pos _ _ Hw); auto.
  - left. apply (uw_pos _ _ Hw'); congruence.
  - left. apply (uprod_pos Rn); auto.
  - left. apply (uprod_pos Rn); try congruence. rewrite ul_Din0, ul_Sin0. auto.
  - apply ul_W0; auto.
  - unfold uprod. rewrite ul_kids0, ul_sel0. apply near_lprod. intros d' Hd'. destruct (Hp d' Hd') as (H1 & H2).
    split; [left; apply Hv; auto|]. split; [left; apply Hv'; auto|apply H; auto].
Qed.
Lemma evals_near Rn us : forall bs us' D S D' S' B v v', uchain Rn us D S D' S' -> uchain Rn us' D S D' S' -> chain_like Rn bs us us' ->
  vpos D S Rn v -> vpos D S Rn v' -> vnear D S Rn B v v' -> vnear D' S' Rn (ups bs us B) (evals us v) (evals us' v').
Proof.
  induction us as [|U us IH]; intros [|b bs] [|U' us'] D S D' S' B v v' Hc Hc' Hl Hv Hv' H; try destruct Hl.
  - destruct Hc as (<- & <-). exact H.
  - destruct Hc as (Hw & <- & <- & Hc). destruct Hc' as (Hw' & E1 & E2 & Hc'). unfold evals. cbn [fold_left ups].
    eapply IH; [exact Hc| |exact H1| | |].
    + destruct H0. rewrite <- ul_Dout0, <- ul_Sout0. exact Hc'.
    + apply ueval_pos; auto.
    + destruct H0. rewrite <- ul_Dout0, <- ul_Sout0. apply ueval_pos; auto. rewrite E1, E2. auto.
    + apply ueval_near; auto.
Qed.
Lemma lprod_exp (l : list nat) (f : nat -> R) : lprod (fun i => exp (f i)) l = exp (lsum f l).
Proof. induction l; cbn; [rewrite exp_0; auto|]. rewrite exp_plus, IHl. auto. Qed.
Lemma usum_kids Rn U (f : nat -> R) : uwf Rn U -> rsum (uDout U) (fun d => lsum f (ukids U d)) = rsum (uDin U) f.
Proof.
  intros Hw. apply exp_inv. unfold rsum. rewrite <- !lprod_exp. fold (rprod (uDin U) (fun i => exp (f i))).
  rewrite <- (uprod_kids Rn U) by auto. unfold rprod. apply lprod_ext. intros d _. symmetry. apply lprod_exp.
Qed.
(** All bounds together: every sum node of the chain counts once. *)
Fixpoint total (bs : list R) (us : list ulayer) : R :=
  match bs, us with b :: bs', U :: us' => INR (uDout U) * b + total bs' us' | _, _ => 0 end.
Lemma ups_total Rn us : forall bs D S D' S' B r, uchain Rn us D S D' S' -> List.length bs = List.length us ->
  rsum D' (fun d => ups bs us B d r) = total bs us + rsum D (fun d => B d r).
Proof.
  induction us as [|U us IH]; intros [|b bs] D S D' S' B r Hc Hl; try discriminate Hl.
  - destruct Hc as (<- & _). cbn [ups total]. lra.
  - destruct Hc as (Hw & <- & <- & Hc). injection Hl as Hl. cbn [ups total]. rewrite (IH bs _ _ _ _ _ _ Hc Hl). unfold up.
    rewrite rsum_plus, rsum_const, (usum_kids Rn U) by auto. lra.
Qed.
Lemma chain_like_length Rn bs : forall us us', chain_like Rn bs us us' -> List.length bs = List.length us.
Proof. induction bs; intros [|U us] [|U' us'] H; try destruct H; cbn; eauto. Qed.

(** ** Networks *)
Record netlike (b bm : R) (bs : list R) (G G' : cnet) : Prop := {
  ne_F : nF G' = nF G; ne_C : nC G' = nC G; ne_L : nL G' = nL G; ne_R : nR G' = nR G; ne_D : nD G' = nD G; ne_Cls : nCls G' = nCls G;
  ne_group : ngroup G' = ngroup G;
  ne_ls : chain_like (nR G) bs (nls G) (nls G');
  ne_mix : forall y r, (y < nCls G)%nat -> (r < nR G)%nat -> near bm (nmix G y r) (nmix G' y r);
  ne_total : total bs (nls G) <= b }.

Lemma near_weaken b b' a a' : b <= b' -> 0 <= a -> 0 <= a' -> near b a a' -> near b' a a'.
Proof. intros Hb Ha Ha' (H1 & H2). assert (exp b <= exp b') by (apply exp_le_compat; auto). split; nra. Qed.

(** [e c f] bounds the change of the leaves of entry (c, f). *)
Lemma neteval_near b bm bs G G' q q' (e : nat -> nat -> R) y : cnet_wf G -> cnet_wf G' -> netlike b bm bs G G' -> (y < nCls G)%nat ->
  (forall c f l r, (c < nC G)%nat -> (f < nF G)%nat -> (l < nL G)%nat -> (r < nR G)%nat -> 0 < q c f l r /\ 0 < q' c f l r /\ near (e c f) (q c f l r) (q' c f l r)) ->
  near (b + bm + rsum (nF G) (fun f => rsum (nC G) (fun c => e c f))) (neteval G q y) (neteval G' q' y).
Proof.
  intros Hw Hw' HN Hy H. destruct HN. unfold neteval. rewrite ne_R0. apply near_sum. intros r Hr.
  assert (Vq: vpos (nD G) (nL G) (nR G) (leafval G q)) by (apply leafval_pos; intros; apply H; auto).
  assert (Vq': vpos (nD G) (nL G) (nR G) (leafval G' q')).
  { rewrite <- ne_D0, <- ne_L0, <- ne_R0. apply leafval_pos. rewrite ne_C0, ne_F0, ne_L0, ne_R0. intros. apply H; auto. }
  pose proof (nw_chain _ Hw) as Hc. pose proof (nw_chain _ Hw') as Hc'. rewrite ne_R0, ne_D0, ne_L0, ne_Cls0 in Hc'.
  set (B := fun d r => rsum (nF G) (fun f => if (ngroup G r f =? d)%nat then rsum (nC G) (fun c => e c f) else 0)).
  assert (HB: vnear (nD G) (nL G) (nR G) B (leafval G q) (leafval G' q')).
  { intros d l r' Hd Hl Hr'. unfold leafval, B. rewrite ne_F0, ne_group0, ne_C0. apply near_rprod. intros f Hf. destruct (ngroup G r' f =? d)%nat.
    - split; [apply rprod_nonneg; intros c Hc0; left; apply H; auto|]. split; [apply rprod_nonneg; intros c Hc0; left; apply H; auto|].
      apply near_rprod. intros c Hc0. destruct (H c f l r' Hc0 Hf Hl Hr') as (H1 & H2 & H3). split; [lra|]. split; [lra|auto].
    - split; [lra|]. split; [lra|apply near_refl]. }
  pose proof (evals_near (nR G) (nls G) bs (nls G') (nD G) (nL G) 1 (nCls G) B _ _ Hc Hc' ne_ls0 Vq Vq' HB 0%nat y r ltac:(lia) Hy Hr) as X.
  pose proof (ups_total (nR G) (nls G) bs _ _ _ _ B r Hc (chain_like_length _ _ _ _ ne_ls0)) as T. rewrite rsum_S, rsum_0, Rplus_0_l in T.
  assert (TB: rsum (nD G) (fun d => B d r) = rsum (nF G) (fun f => rsum (nC G) (fun c => e c f))).
  { unfold B. rewrite (rsum_group (nF G) (nD G) (ngroup G r)) by (intros; apply (nw_group _ Hw); auto). reflexivity. }
  rewrite TB in T. rewrite T in X.
  assert (P: 0 < evals (nls G) (leafval G q) 0%nat y r) by (apply (evals_pos (nR G) (nls G) (nD G) (nL G) 1 (nCls G)); auto).
  assert (P': 0 < evals (nls G') (leafval G' q') 0%nat y r) by (apply (evals_pos (nR G) (nls G') (nD G) (nL G) 1 (nCls G)); auto).
  assert (M: 0 < nmix G y r) by (apply (nw_mix_pos _ Hw); auto). assert (M': 0 < nmix G' y r) by (apply (nw_mix_pos _ Hw'); congruence).
  apply (near_weaken (bm + (total bs (nls G) + rsum (nF G) (fun f => rsum (nC G) (fun c => e c f))))); [lra|nra|nra|].
  apply near_mult; auto; lra.
Qed.
