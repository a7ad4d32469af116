(** Proofs about the dropout loop and the forward passes under a mask. *)
From Coq Require Import List Arith Lia Bool Reals Lra.
Import ListNotations.
From Verif Require Import Base RSum Num Tensor Prob Layers Circuit RefFwd RefLayer Dropout.
Local Open Scope R_scope.
Local Arguments Nat.div : simpl never.
Local Arguments Nat.modulo : simpl never.
Local Arguments Nat.mul : simpl never.
Local Arguments Nat.add : simpl never.
Local Arguments clamp : simpl never.
Local Arguments bdim : simpl never.

(** * The loop *)
Lemma filter_seq_full n f s : (length (filter f (seq s n)) <= n)%nat /\
  (length (filter f (seq s n)) = n <-> forall i, (s <= i < s + n)%nat -> f i = true).
Proof.
  revert s; induction n as [|n IH]; intros s; simpl.
  - split; auto. split; auto. intros; lia.
  - destruct (IH (S s)) as [I1 I2]. destruct (f s) eqn:E; simpl.
    + split; [lia|]. split.
      * intros H. apply Nat.succ_inj in H. intros i Hi. destruct (Nat.eq_dec i s) as [->|]; auto. apply I2; auto. lia.
      * intros H. f_equal. apply I2. intros i Hi. apply H. lia.
    + split; [lia|]. split; [lia|]. intros H. rewrite (H s) in E by lia. discriminate.
Qed.
Lemma count_full n f : (count n f =? n)%nat = true <-> forall i, (i < n)%nat -> f i = true.
Proof.
  rewrite Nat.eqb_eq. unfold count. destruct (filter_seq_full n f 0) as [_ H]. rewrite H.
  split; intros G i Hi; apply G; lia.
Qed.
Lemma count_not_full n f : (count n f =? n)%nat = false -> exists i, (i < n)%nat /\ f i = false.
Proof.
  intros H. induction n as [|n IH] in f, H |- *.
  - discriminate.
  - destruct (f n) eqn:E; [|exists n; auto].
    destruct (count n f =? n)%nat eqn:Q.
    + exfalso. assert (X: (count (S n) f =? S n)%nat = true); [|congruence].
      apply count_full. intros i Hi. destruct (Nat.eq_dec i n) as [->|]; auto.
      apply (proj1 (count_full n f)); auto. lia.
    + destruct (IH f Q) as (i & Hi & Ei). exists i. split; auto.
Qed.
Lemma tany_false m : tany m = false <-> forall idx, inb (shape m) idx -> get m idx = false.
Proof.
  unfold tany. split.
  - intros H idx Hi. destruct (get m idx) eqn:E; auto.
    assert (X: existsb (get m) (all_idx (shape m)) = true); [|congruence].
    apply existsb_exists. exists idx. split; auto. apply in_all_idx; auto.
  - intros H. destruct (existsb _ _) eqn:E; auto. apply existsb_exists in E as (idx & Hi & Hg).
    apply in_all_idx in Hi. rewrite H in Hg; auto.
Qed.
Lemma tany_true m : tany m = true <-> exists idx, inb (shape m) idx /\ get m idx = true.
Proof.
  unfold tany. rewrite existsb_exists. split; intros (i & Hi & Hg); exists i; split; auto; apply in_all_idx; auto.
Qed.

(** Whenever the loop ends without an error, some entry is kept along [d] at every position. *)
Theorem drop_loop_keeps coin d fuel : forall k m m', drop_loop coin d fuel k m = Some (Ok m') ->
  shape m' = shape m /\
  forall idx, inb (remove_nth d (shape m)) idx -> exists j, (j < size m d)%nat /\ get m' (insert_nth d j idx) = false.
Proof.
  induction fuel as [|fuel IH]; intros k m m' H; cbn [drop_loop] in H.
  - destruct (tany _) eqn:E; [discriminate|]. inversion H; subst m'. split; auto.
    intros idx Hi. rewrite tany_false in E. specialize (E idx Hi). apply count_not_full in E. exact E.
  - destruct (tany _) eqn:E.
    + destruct (masked_shape _ _); [|discriminate]. apply IH in H as [H1 H2]. split; [exact H1|]. exact H2.
    + inversion H; subst m'. split; auto.
      intros idx Hi. rewrite tany_false in E. specialize (E idx Hi). apply count_not_full in E. exact E.
Qed.
Lemma drop_loop_done coin d fuel k m : tany (all_dropped d m) = false -> drop_loop coin d fuel k m = Some (Ok m).
Proof. intros H. destruct fuel; cbn [drop_loop]; rewrite H; reflexivity. Qed.
Lemma drop_loop_fails coin d fuel k m : tany (all_dropped d m) = true ->
  leading (remove_nth d (shape m)) (shape m) = false ->
  drop_loop coin d (S fuel) k m = Some (Err IndexErr).
Proof. intros H H2. cbn [drop_loop]. rewrite H. unfold masked_shape. cbn [all_dropped reduce shape]. rewrite H2. reflexivity. Qed.

(** * Rows of the mask, when the axis summed over is the last one *)
Lemma leading_app a b : leading a (a ++ b) = true.
Proof. induction a; simpl; auto. rewrite Nat.eqb_refl. auto. Qed.
Lemma find_pos_in p l : In p l -> nth (find_pos p l) l [] = p.
Proof.
  induction l as [|q l IH]; simpl; [tauto|]. intros [->|H].
  - rewrite eqb_list_refl. reflexivity.
  - destruct (eqb_list p q) eqn:E; [apply eqb_list_eq in E; auto|apply IH; auto].
Qed.
Lemma find_pos_lt p l : In p l -> (find_pos p l < length l)%nat.
Proof.
  induction l as [|q l IH]; simpl; [tauto|]. intros [->|H].
  - rewrite eqb_list_refl. lia.
  - destruct (eqb_list p q); [lia|]. apply IH in H. lia.
Qed.

(** One round on a mask whose last axis is summed over: a row that lost everything is drawn anew,
    every other row is untouched. *)
Lemma drop_round coin pre K k m : shape m = pre ++ [K] -> tany (all_dropped (length pre) m) = true ->
  exists m1, shape m1 = pre ++ [K] /\
   (forall fuel, drop_loop coin (length pre) (S fuel) k m = drop_loop coin (length pre) fuel (S k) m1) /\
   forall p j, inb pre p -> (j < K)%nat ->
     exists i, get m1 (p ++ [j]) = if forallb (fun j => get m (p ++ [j])) (seq 0 K) then coin k [i; j] else get m (p ++ [j]).
Proof.
  intros Hs E.
  assert (Sh: shape (all_dropped (length pre) m) = pre).
  { unfold all_dropped, reduce. cbn [shape]. rewrite Hs. apply remove_last. }
  assert (Gt: forall p, length p = length pre ->
    get (all_dropped (length pre) m) p = forallb (fun j => get m (p ++ [j])) (seq 0 K)).
  { intros p Hp. unfold all_dropped, reduce, size. cbn [get]. rewrite Hs, nth_last.
    apply Bool.eq_iff_eq_true. rewrite count_full, forallb_forall. rewrite <- Hp.
    split.
    - intros H j Hj. apply in_seq in Hj. rewrite <- insert_last. apply H. lia.
    - intros H j Hj. rewrite insert_last. apply H. apply in_seq. lia. }
  eexists (masked_write m (all_dropped (length pre) m) (mkT _ (coin k))). split; [exact Hs|]. split.
  - intros fuel. cbn [drop_loop]. rewrite E. unfold masked_shape. rewrite Sh, Hs, leading_app. reflexivity.
  - intros p j Hp Hj. pose proof (inb_length _ _ Hp) as Lp.
    unfold masked_write. cbn [get]. unfold dim. rewrite Sh, <- Lp, firstn_app, firstn_all, Nat.sub_diag, skipn_app, skipn_all, Nat.sub_diag.
    cbn [firstn skipn app]. rewrite app_nil_r. rewrite Lp, Gt by auto. eexists. reflexivity.
Qed.

(** If in some round every coin says "keep", the loop has ended by then. *)
Lemma drop_loop_ends coin pre K : (0 < K)%nat -> forall fuel k m, shape m = pre ++ [K] ->
  (exists i, (i < fuel)%nat /\ forall idx, coin (k + i)%nat idx = false) ->
  exists m', drop_loop coin (length pre) fuel k m = Some (Ok m').
Proof.
  intros HK. induction fuel as [|fuel IH]; intros k m Hs (i & Hi & Hc); [lia|].
  destruct (tany (all_dropped (length pre) m)) eqn:E.
  - destruct (drop_round coin pre K k m Hs E) as (m1 & Hs1 & HL & HG). rewrite HL.
    destruct i as [|i].
    + exists m1. apply drop_loop_done. apply tany_false. unfold all_dropped, reduce, size. cbn [shape get].
      rewrite Hs1, remove_last, nth_last. intros p Hp.
      destruct (count K _ =? K)%nat eqn:Q; auto. rewrite count_full in Q. exfalso.
      pose proof (inb_length _ _ Hp) as Lp. rewrite <- Lp in Q.
      assert (QQ: forall j, (j < K)%nat -> get m1 (p ++ [j]) = true).
      { intros j Hj. rewrite <- insert_last. apply Q; auto. }
      destruct (HG p 0%nat Hp HK) as (i & Gi). rewrite QQ in Gi by auto.
      destruct (forallb _ _) eqn:F.
      * rewrite Nat.add_0_r in Hc. rewrite Hc in Gi. discriminate.
      * assert (forallb (fun j => get m (p ++ [j])) (seq 0 K) = true); [|congruence].
        apply forallb_forall. intros j Hj. apply in_seq in Hj.
        destruct (HG p j Hp) as (i' & Gi'); [lia|]. rewrite QQ in Gi' by lia.
        try rewrite F in Gi'. auto.
    + apply IH; auto. exists i. split; [lia|]. intros idx. specialize (Hc idx).
      replace (S k + i)%nat with (k + S i)%nat by lia. exact Hc.
  - exists m. apply drop_loop_done. auto.
Qed.

(** If every coin says "drop", the loop never ends. *)
Lemma drop_loop_stuck coin pre K : (exists p, inb pre p) ->
  (forall k idx, coin k idx = true) -> forall fuel k m, shape m = pre ++ [K] ->
  (forall p j, inb pre p -> (j < K)%nat -> get m (p ++ [j]) = true) ->
  drop_loop coin (length pre) fuel k m = None.
Proof.
  intros (p & Hp) Hc. induction fuel as [|fuel IH]; intros k m Hs Hm.
  - cbn [drop_loop]. replace (tany _) with true; auto. symmetry. apply tany_true. exists p.
    unfold all_dropped, reduce, size. cbn [shape get]. rewrite Hs, remove_last, nth_last. split; auto.
    apply count_full. intros j Hj. rewrite <- (inb_length _ _ Hp), insert_last. apply Hm; auto.
  - assert (E: tany (all_dropped (length pre) m) = true).
    { apply tany_true. exists p.
      unfold all_dropped, reduce, size. cbn [shape get]. rewrite Hs, remove_last, nth_last. split; auto.
      apply count_full. intros j Hj. rewrite <- (inb_length _ _ Hp), insert_last. apply Hm; auto. }
    destruct (drop_round coin pre K k m Hs E) as (m1 & Hs1 & HL & HG). rewrite HL. apply IH; auto.
    intros q j Hq Hj. destruct (HG q j Hq Hj) as (i & ->). rewrite Hc, Hm by auto. destruct (forallb _ _); auto.
Qed.

(** * Sums under a mask *)
(** Log-values that may be minus infinity. *)
Lemma nlog_case a : 0 <= a -> (a = 0 /\ nlog (Fin a) = NInf) \/ (0 < a /\ nlog (Fin a) = Fin (ln a)).
Proof.
  intros H. destruct (Rle_lt_or_eq_dec 0 a H) as [P| <-]; [right; split; auto; apply nlog_pos; auto|].
  left. split; auto. apply nlog_zero.
Qed.
Lemma nadd_nlog a b : 0 <= a -> 0 <= b -> nadd (nlog (Fin a)) (nlog (Fin b)) = nlog (Fin (a * b)).
Proof.
  intros Ha Hb. destruct (nlog_case a Ha) as [[-> ->]|[Pa ->]]; destruct (nlog_case b Hb) as [[-> ->]|[Pb ->]];
    rewrite ?Rmult_0_l, ?Rmult_0_r, ?nlog_zero; try reflexivity.
  rewrite nlog_pos by (apply Rmult_lt_0_compat; auto). cbn [nadd]. rewrite ln_mul by auto. reflexivity.
Qed.
Lemma nexp_nlog a : 0 <= a -> nexp (nlog (Fin a)) = Fin a.
Proof.
  intros Ha. destruct (nlog_case a Ha) as [[-> ->]|[Pa ->]]; [reflexivity|]. cbn [nexp]. rewrite exp_ln by auto. reflexivity.
Qed.
Lemma nlogsumexp_nlog n f (g : nat -> R) : (forall i, (i < n)%nat -> 0 <= g i /\ f i = nlog (Fin (g i))) ->
  nlogsumexp n f = nlog (Fin (rsum n g)).
Proof.
  intros H. unfold nlogsumexp. rewrite (nsum_fin n _ g); auto. intros i Hi. destruct (H i Hi) as [P ->].
  apply nexp_nlog; auto.
Qed.
Definition kept (b : bool) : R := if b then 0 else 1.
Lemma log_keep_get m idx : get (log_keep m) idx = nlog (Fin (kept (get m idx))).
Proof. unfold log_keep, tmap, kept. cbn [get]. destruct (get m idx); f_equal; f_equal; lra. Qed.
Lemma kept_nonneg b : 0 <= kept b.
Proof. destruct b; simpl; lra. Qed.
Lemma rsum_kept_pos n (g : nat -> R) (b : nat -> bool) : (forall i, (i < n)%nat -> 0 < g i) ->
  (exists j, (j < n)%nat /\ b j = false) -> 0 < rsum n (fun i => kept (b i) * g i).
Proof.
  intros Hg (j & Hj & Ej). induction n as [|n IH]; [lia|]. rewrite rsum_S.
  assert (P: 0 <= rsum n (fun i => kept (b i) * g i)).
  { apply rsum_nonneg. intros i Hi. apply Rmult_le_pos; [apply kept_nonneg|left; apply Hg; lia]. }
  assert (P': 0 <= kept (b n) * g n) by (apply Rmult_le_pos; [apply kept_nonneg|left; apply Hg; lia]).
  destruct (Nat.eq_dec j n) as [->|].
  - rewrite Ej in *. simpl kept in *. rewrite Rmult_1_l in *. specialize (Hg n ltac:(lia)). lra.
  - assert (0 < rsum n (fun i => kept (b i) * g i)) by (apply IH; [intros; apply Hg; lia|lia]). lra.
Qed.

(** Values as logarithms of non-negative numbers. *)
Definition vrep (t : tensor num) (N D S Rn : nat) (v : nat -> vals) : Prop :=
  shape t = [N; D; S; Rn] /\ forall n d s r, (n < N)%nat -> (d < D)%nat -> (s < S)%nat -> (r < Rn)%nat ->
    0 <= v n d s r /\ get t [n; d; s; r] = nlog (Fin (v n d s r)).
Lemma trep_vrep t N D S Rn v : trep t N D S Rn v -> vrep t N D S Rn v.
Proof.
  intros [Hs H]. split; auto. intros n d s r Hn Hd Hs' Hr. destruct (H n d s r) as [P E]; auto.
  split; [lra|]. rewrite E, nlog_pos; auto.
Qed.

(** A weighted sum over channels of such values. *)
Lemma wsum_vrep lg (x : tensor num) N D S O Rn (v : nat -> nat -> nat -> nat -> R) : (0 < S)%nat -> lfin lg [D; S; O; Rn] ->
  shape x = [N; D; S; 1%nat; Rn] ->
  (forall n d s r, (n < N)%nat -> (d < D)%nat -> (s < S)%nat -> (r < Rn)%nat ->
    0 <= v n d s r /\ get x [n; d; s; 0%nat; r] = nlog (Fin (v n d s r))) ->
  exists t, badd x (unsqueeze 0 (logits_to_log_weights lg 1 1)) = Ok t /\
  vrep (tlogsumexp 2 t) N D O Rn (fun n d o r =>
    rsum S (fun k => wsoft S 1 (fun k => get lg [d; k; o; r]) k * v n d k r)).
Proof.
  intros HS Hl Hx Gx. destruct x as [sx gx]. cbn [shape] in Hx. cbn [get] in Gx. subst sx.
  pose proof Hl as [Hls _].
  unfold unsqueeze. cbn [shape]. rewrite ltlw_shape, Hls. simpl insert_nth.
  bcast. eexists. split; [reflexivity|].
  assert (Sh: forall g, shape (tlogsumexp 2 (mkT [N; D; S; O; Rn] g)) = [N; D; O; Rn]) by reflexivity.
  split; [apply Sh|].
  intros n d o r Hn Hd Ho Hr.
  assert (P: forall k, (k < S)%nat -> 0 <= wsoft S 1 (fun k => get lg [d; k; o; r]) k * v n d k r).
  { intros k Hk. apply Rmult_le_pos; [left; apply wsoft_pos; auto|apply Gx; auto]. }
  split; [apply rsum_nonneg; auto|].
  unfold tlogsumexp, reduce, size. cbn [get shape nth insert_nth].
  apply nlogsumexp_nlog; auto. intros k Hk. split; [apply P; auto|].
  unfold bproj. simpl length. simpl skipn. cbn [bidx]. clamps. cbn [remove_nth].
  rewrite (ltlw_get lg 1 1 [d; k; o; r] (fun k => toR (get lg [d; k; o; r]))).
  - destruct (Gx n d k r) as [Px Ex]; auto. rewrite Ex.
    unfold size. rewrite Hls. cbn [nth].
    rewrite <- (nlog_pos (rsoftmax S _ k)) by (apply rsoftmax_pos; auto).
    rewrite nadd_nlog by (auto; left; apply rsoftmax_pos; auto). rewrite Rmult_comm. reflexivity.
  - lra.
  - simpl; lia.
  - unfold size. rewrite Hls. auto.
  - unfold size. rewrite Hls. simpl. intros k' Hk'. apply lfin_get with (s := [D; S; O; Rn]); auto. simpl; auto.
Qed.

(** * The layers *)
Lemma ln_of_pos a : 0 < a -> nlog (Fin a) = Fin (ln a).
Proof. apply nlog_pos. Qed.

(** LinsumLayer under a mask of the shape of prod_output. *)
Theorem linsum_masked L x N m : linsum_ok L -> values x N (nf L) (sin L) (nrep L) ->
  shape m = [N; (nf L + 1) / 2; sin L; 1; nrep L]%nat ->
  exists y ca, linsum_forward L (Some m) x = Ok (y, ca) /\ shape y = [N; (nf L + 1) / 2; sout L; nrep L]%nat /\
  forall n d o r, (n < N)%nat -> (d < (nf L + 1) / 2)%nat -> (o < sout L)%nat -> (r < nrep L)%nat ->
    get y [n; d; o; r] = nlog (Fin (rsum (sin L) (fun k => kept (get m [n; d; k; 0%nat; r]) *
      (chan_weight L 1 d o r k * vexp x n (2 * d) k r * if (2 * d + 1 <? nf L)%nat then vexp x n (2 * d + 1) k r else 1)))).
Proof.
  intros (Hs & Hn & Hl) Hv Hm. pose proof (values_rep _ _ _ _ _ Hv) as Hx.
  unfold linsum_forward. unfold size4. destruct Hv as [Hsx _]. rewrite Hsx. cbn [bind].
  unfold linsum_features_out, linsum_weight_shape, linsum_features_out, linsum_pad in *. rewrite div2_half in *.
  pose proof (left_rep _ _ _ _ _ _ Hx Hn) as HL.
  destruct (right_rep _ _ _ _ _ _ Hx Hn) as (rt & E & HR). rewrite E. cbn [bind].
  destruct (badd4_rep _ _ _ _ _ _ _ _ HL HR) as (p & Ep & [Sp Gp]). rewrite Ep. cbn [bind apply_mask].
  destruct (bop_same nadd (unsqueeze 3 p) (log_keep m)) as (pm & Epm & Spm & Gpm).
  { unfold unsqueeze, log_keep, tmap. cbn [shape]. rewrite Sp, Hm. reflexivity. }
  unfold badd at 1. rewrite Epm. cbn [bind].
  assert (Spm': shape pm = [N; (nf L + 1) / 2; sin L; 1; nrep L]%nat).
  { rewrite Spm. unfold unsqueeze. cbn [shape]. rewrite Sp. reflexivity. }
  destruct (wsum_vrep (logits L) pm N _ _ (sout L) _ (fun n d k r => kept (get m [n; d; k; 0%nat; r]) *
     (lval2 (vexp x n) d k r * rval2 (nf L) (vexp x n) d k r)) Hs Hl Spm') as (t & Et & [St Gt]).
  { intros n d k r Hn' Hd Hk Hr. destruct (Gp n d k r) as [P G]; auto. split.
    - apply Rmult_le_pos; [apply kept_nonneg|lra].
    - assert (S0: shape (unsqueeze 3 p) = [N; (nf L + 1) / 2; sin L; 1; nrep L]%nat) by (unfold unsqueeze; cbn [shape]; rewrite Sp; reflexivity).
      rewrite Gpm by (rewrite S0; simpl; repeat split; auto; lia).
      unfold unsqueeze. cbn [get remove_nth]. rewrite G, log_keep_get, <- ln_of_pos by auto.
      rewrite nadd_nlog by (try apply kept_nonneg; lra). f_equal. f_equal. ring. }
  rewrite Et. cbn [bind]. eexists _, _. split; [reflexivity|]. split; [exact St|].
  intros n d o r Hn' Hd Ho Hr. destruct (Gt n d o r) as [_ ->]; auto. f_equal. f_equal.
  apply rsum_ext. intros k Hk. unfold lval2, rval2.
  change (wsoft (sin L) 1 (fun k0 => get (logits L) [d; k0; o; r]) k) with (chan_weight L 1 d o r k). ring.
Qed.

(** MixingLayer under a mask of the shape of its input. *)
Definition mix_weight (L : slay) (T : R) (d y r : nat) : R :=
  exp (toR (get (logits L) [d; y; r]) / T) / rsum (sin L) (fun r => exp (toR (get (logits L) [d; y; r]) / T)).
Theorem mixing_masked L x N m : (0 < sin L)%nat -> lfin (logits L) (mixing_weight_shape L) ->
  values x N (nf L) (sout L) (sin L) -> shape m = [N; nf L; sout L; sin L] ->
  exists y ca, mixing_forward L (Some m) x = Ok (y, ca) /\ shape y = [N; nf L; sout L] /\
  forall n d o, (n < N)%nat -> (d < nf L)%nat -> (o < sout L)%nat ->
    get y [n; d; o] = nlog (Fin (rsum (sin L) (fun k => kept (get m [n; d; o; k]) *
      (mix_weight L 1 d o k * vexp x n d o k)))).
Proof.
  intros Hs Hl [Hsx Gx] Hm. unfold mixing_forward. cbn [apply_mask].
  destruct (bop_same nadd x (log_keep m)) as (xm & Exm & Sxm & Gxm).
  { unfold log_keep, tmap. cbn [shape]. rewrite Hsx, Hm. reflexivity. }
  unfold badd at 1. rewrite Exm. cbn [bind]. rewrite Hsx in Sxm. rewrite Hsx in Gxm.
  unfold mixing_weight_shape in Hl. pose proof Hl as [Hls _].
  destruct xm as [sm gm]. cbn [shape] in Sxm. cbn [get] in Gxm. subst sm. clear Exm.
  unfold unsqueeze. rewrite ltlw_shape, Hls. simpl insert_nth. bcast. cbn [bind].
  eexists _, _. split; [reflexivity|]. split; [reflexivity|].
  intros n d o Hn Hd Ho. unfold tlogsumexp, reduce, size. cbn [get shape nth insert_nth].
  apply nlogsumexp_nlog. intros k Hk.
  assert (P: 0 <= vexp x n d o k) by (unfold vexp; left; apply exp_pos).
  assert (W: 0 < mix_weight L 1 d o k).
  { apply Rdiv_lt_0_compat; [apply exp_pos|]. apply rsum_pos; auto. intros; apply exp_pos. }
  split; [apply Rmult_le_pos; [apply kept_nonneg|apply Rmult_le_pos; lra]|].
  unfold bproj. simpl length. simpl skipn. cbn [bidx]. clamps. cbn [remove_nth].
  rewrite Gxm by (simpl; auto). rewrite log_keep_get.
  destruct (Gx n d o k) as (a & Ha); auto. unfold vexp in P |- *. rewrite Ha in P |- *. cbn [toR] in P |- *.
  replace (Fin a) with (nlog (Fin (exp a))) by (rewrite nlog_pos, ln_exp by apply exp_pos; reflexivity).
  rewrite nadd_nlog by (auto; apply kept_nonneg).
  rewrite (ltlw_get (logits L) 2 1 [d; o; k] (fun k => toR (get (logits L) [d; o; k]))).
  - unfold size. rewrite Hls. cbn [nth].
    rewrite <- nlog_pos by (apply rsoftmax_pos; auto).
    change (rsoftmax (sin L) (fun k0 => toR (get (logits L) [d; o; k0]) / 1) k) with (mix_weight L 1 d o k).
    rewrite nadd_nlog; [|apply Rmult_le_pos; auto; apply kept_nonneg|lra]. f_equal. f_equal. ring.
  - lra.
  - simpl; lia.
  - unfold size. rewrite Hls. auto.
  - unfold size. rewrite Hls. simpl. intros k' Hk'. apply lfin_get with (s := [nf L; sout L; sin L]); auto. simpl; auto.
Qed.

(** SumLayer under a mask of the shape of its input. *)
Theorem sum_masked L x N m : sum_ok L -> values x N (nf L) (sin L) (nrep L) -> shape m = [N; nf L; sin L; nrep L] ->
  exists y ca, sum_forward L (Some m) x = Ok (y, ca) /\ shape y = [N; nf L; sout L; nrep L] /\
  forall n d o r, (n < N)%nat -> (d < nf L)%nat -> (o < sout L)%nat -> (r < nrep L)%nat ->
    get y [n; d; o; r] = nlog (Fin (rsum (sin L) (fun k => kept (get m [n; d; k; r]) *
      (chan_weight L 1 d o r k * vexp x n d k r)))).
Proof.
  intros (Hs & Hl) [Hsx Gx] Hm. unfold sum_forward. cbn [apply_mask].
  destruct (bop_same nadd x (log_keep m)) as (xm & Exm & Sxm & Gxm).
  { unfold log_keep, tmap. cbn [shape]. rewrite Hsx, Hm. reflexivity. }
  unfold badd at 1. rewrite Exm. cbn [bind]. rewrite Hsx in Sxm. rewrite Hsx in Gxm.
  destruct (wsum_vrep (logits L) (unsqueeze 3 xm) N (nf L) (sin L) (sout L) (nrep L)
     (fun n d k r => kept (get m [n; d; k; r]) * vexp x n d k r) Hs Hl) as (t & Et & [St Gt]).
  { unfold unsqueeze. cbn [shape]. rewrite Sxm. reflexivity. }
  { intros n d k r Hn Hd Hk Hr.
    assert (P: 0 <= vexp x n d k r) by (unfold vexp; left; apply exp_pos).
    split; [apply Rmult_le_pos; auto; apply kept_nonneg|].
    unfold unsqueeze. cbn [get remove_nth]. rewrite Gxm by (simpl; auto). rewrite log_keep_get.
    destruct (Gx n d k r) as (a & Ha); auto. unfold vexp in P |- *. rewrite Ha in P |- *. cbn [toR] in P |- *.
    replace (Fin a) with (nlog (Fin (exp a))) by (rewrite nlog_pos, ln_exp by apply exp_pos; reflexivity).
    rewrite nadd_nlog by (auto; apply kept_nonneg). f_equal. f_equal. ring. }
  rewrite Et. cbn [bind]. rewrite St.
  replace (size (unsqueeze 3 xm) 0) with N by (unfold size, unsqueeze; cbn [shape]; rewrite Sxm; reflexivity).
  replace (size (unsqueeze 3 xm) 1) with (nf L) by (unfold size, unsqueeze; cbn [shape]; rewrite Sxm; reflexivity).
  rewrite eqb_list_refl. cbn [assert bind]. eexists _, _. split; [reflexivity|]. split; [exact St|].
  intros n d o r Hn Hd Ho Hr. destruct (Gt n d o r) as [_ ->]; auto. f_equal. f_equal.
  apply rsum_ext. intros k Hk.
  change (wsoft (sin L) 1 (fun k0 => get (logits L) [d; k0; o; r]) k) with (chan_weight L 1 d o r k). ring.
Qed.

(** LinsumLayer2 under a mask of the shape of its output. *)
Theorem linsum2_masked L x N m : linsum2_ok L -> values x N (nf L) (sin L) (nrep L) ->
  shape m = [N; (nf L + 1) / 2; sout L; nrep L]%nat ->
  exists y0 y ca, linsum2_forward L None x = Ok (y0, ca) /\ linsum2_forward L (Some m) x = Ok (y, ca) /\
  shape y = [N; (nf L + 1) / 2; sout L; nrep L]%nat /\
  forall n d o r, (n < N)%nat -> (d < (nf L + 1) / 2)%nat -> (o < sout L)%nat -> (r < nrep L)%nat ->
    get y [n; d; o; r] = if get m [n; d; o; r] then NInf else get y0 [n; d; o; r].
Proof.
  intros Hok Hv Hm. destruct (linsum2_padding L x N Hok Hv) as (y0 & ca & E & Sy & Gy).
  revert E. unfold linsum2_forward. intros E.
  destruct (badd (unsqueeze 3 x) _) as [t|] eqn:Et; [|discriminate]. cbn [bind] in E |- *.
  destruct (pad_right _ _) as [rt|] eqn:Er; [|discriminate]. cbn [bind] in E |- *.
  destruct (badd (slice_step 1 0 2 (tlogsumexp 2 t)) rt) as [p|] eqn:Ep; [|discriminate]. cbn [bind apply_mask] in E |- *.
  inversion E; subst y0 ca. clear E.
  destruct (bop_same nadd p (log_keep m)) as (pm & Epm & Spm & Gpm).
  { unfold log_keep, tmap. cbn [shape]. rewrite Sy, Hm. reflexivity. }
  unfold badd. rewrite Epm. cbn [bind]. exists p, pm, (CIn x). split; [reflexivity|]. split; [reflexivity|].
  split; [congruence|]. intros n d o r Hn Hd Ho Hr. rewrite Gpm by (rewrite Sy; simpl; auto).
  rewrite log_keep_get, (Gy n d o r) by auto. destruct (get m _); cbn [kept].
  - rewrite nlog_zero. reflexivity.
  - rewrite nlog_pos, ln_1 by lra. cbn [nadd]. rewrite Rplus_0_r. reflexivity.
Qed.
