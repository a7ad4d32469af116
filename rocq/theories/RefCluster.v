(** Lemmas on cluster prediction and on the initial weights of a mixture. *)
From Coq Require Import List Arith Lia Bool Reals Lra.
Import ListNotations.
From Verif Require Import Base RSum Num Tensor Prob Layers RefFwd Leaf RefLeaf TypeChecks Einet RefNet RefEinet Build Spec RefSpec Mixture RefMixture Cluster.
Local Open Scope R_scope.
Local Arguments Nat.div : simpl never.
Local Arguments Nat.modulo : simpl never.
Local Arguments Nat.sub : simpl never.
Local Arguments Nat.mul : simpl never.
Local Arguments Nat.add : simpl never.

(** * Similarity *)
Lemma euc_sim_fin D a (r b : nat -> R) : (forall j, (j < D)%nat -> a j = Fin (r j)) ->
  euc_sim D a b = Fin (- rsum D (fun j => (r j - b j) ^ 2)).
Proof.
  intros H. unfold euc_sim. rewrite (nsum_fin D _ (fun j => 2 * r j * b j)) by (intros j Hj; rewrite H by auto; reflexivity).
  rewrite (nsum_fin D (fun j => nmul (a j) (a j)) (fun j => r j * r j)) by (intros j Hj; rewrite H by auto; reflexivity).
  cbn [nsub nadd nneg]. f_equal. clear H. induction D as [|D IH]; [rewrite !rsum_0; ring|]. rewrite !rsum_S. lra.
Qed.
Lemma nadd_nan_l x : nadd NaN x = NaN.
Proof. destruct x; reflexivity. Qed.
Lemma nadd_nan_r x : nadd x NaN = NaN.
Proof. destruct x; reflexivity. Qed.
Lemma nsum_nan D f j : (j < D)%nat -> f j = NaN -> nsum D f = NaN.
Proof.
  revert j. induction D as [|D IH]; intros j Hj E; [lia|]. rewrite nsum_S. destruct (Nat.eq_dec j D) as [->|].
  - rewrite E. apply nadd_nan_r.
  - rewrite (IH j) by (auto; lia). apply nadd_nan_l.
Qed.
Lemma euc_sim_nan D a b j : (j < D)%nat -> a j = NaN -> euc_sim D a b = NaN.
Proof. intros Hj E. unfold euc_sim. rewrite (nsum_nan D _ j) by (auto; rewrite E; reflexivity). unfold nsub. rewrite !nadd_nan_l. reflexivity. Qed.
Lemma nargmax_nan n f : (forall i, (i < n)%nat -> f i = NaN) -> nargmax n f = 0%nat.
Proof.
  intros H. unfold nargmax. assert (G: forall k i, (i + k <= n)%nat -> (0 < i)%nat -> argmax_aux f k i 0 = 0%nat).
  { induction k as [|k IH]; intros i Hi H0; cbn [argmax_aux]; auto. rewrite (H i), (H 0%nat) by lia. cbn [nltb]. apply IH; lia. }
  destruct n; [reflexivity|]. apply G; cbn; lia.
Qed.
(** No earlier index is as good as the one returned. *)
Lemma nargmax_first n f (r : nat -> R) : (0 < n)%nat -> (forall i, (i < n)%nat -> f i = Fin (r i)) ->
  forall j, (j < nargmax n f)%nat -> r j < r (nargmax n f).
Proof.
  intros Hn Hf. unfold nargmax.
  assert (G: forall k i best, (best < i)%nat -> (i + k <= n)%nat -> (forall j, (j < best)%nat -> r j < r best) -> (forall j, (j < i)%nat -> r j <= r best) ->
     forall j, (j < argmax_aux f k i best)%nat -> r j < r (argmax_aux f k i best)).
  { induction k as [|k IH]; intros i best Hb Hik H1 H2 j; cbn [argmax_aux]; auto.
    rewrite !Hf by lia. cbn [nltb]. destruct (Rlt_dec (r best) (r i)) as [L|L].
    - apply IH; try lia.
      + intros j' Hj'. specialize (H2 j' Hj'). lra.
      + intros j' Hj'. destruct (Nat.eq_dec j' i) as [->|]; [lra|]. specialize (H2 j' ltac:(lia)). lra.
    - apply IH; try lia; auto. intros j' Hj'. destruct (Nat.eq_dec j' i) as [->|]; [lra|]. apply H2. lia. }
  apply G; try lia. intros j Hj. replace j with 0%nat by lia. lra.
Qed.
(** Equivariance: an increasing change of the values does not change the choice. *)
Lemma nargmax_incr n f g (r s : nat -> R) : (forall i, (i < n)%nat -> f i = Fin (r i)) -> (forall i, (i < n)%nat -> g i = Fin (s i)) ->
  (forall i j, (i < n)%nat -> (j < n)%nat -> r i < r j <-> s i < s j) -> nargmax n f = nargmax n g.
Proof.
  intros Hf Hg H. unfold nargmax.
  assert (G: forall k i best, (best < i)%nat -> (i + k <= n)%nat -> argmax_aux f k i best = argmax_aux g k i best).
  { induction k as [|k IH]; intros i best Hb Hik; cbn [argmax_aux]; auto. rewrite !Hf, !Hg by lia. cbn [nltb].
    destruct (Rlt_dec (r best) (r i)) as [L|L]; destruct (Rlt_dec (s best) (s i)) as [L'|L']; try (apply IH; lia); exfalso;
      [apply L'; apply H|apply L; apply H]; auto; lia. }
  destruct n; [reflexivity|]. apply G; cbn; lia.
Qed.

(** * The rows that are compared *)
Lemma view_rows {A} (x : tensor A) N C F : wshape (shape x) N C F -> (0 < N)%nat ->
  exists y, view_infer [size x 0] [] x = Ok y /\ shape y = [N; C * F]%nat /\
    forall n c f, (n < N)%nat -> (c < C)%nat -> (f < F)%nat -> get y [n; c * F + f]%nat = entry x n c f.
Proof.
  intros H HN. unfold view_infer.
  assert (S0: size x 0 = N) by (unfold size; destruct H as [(-> & _)|[->|(h & w & -> & _)]]; reflexivity).
  rewrite S0. cbn [numel app]. rewrite !Nat.mul_1_r. destruct (Nat.eqb_spec N 0) as [|_]; [lia|].
  rewrite (wshape_numel _ _ _ _ H). cbn [numel]. rewrite Nat.mul_1_r.
  replace (N * (C * F) / N)%nat with (C * F)%nat by (symmetry; rewrite Nat.mul_comm; apply Nat.div_mul; lia).
  unfold view. rewrite (wshape_numel _ _ _ _ H). cbn [numel]. rewrite !Nat.mul_1_r, Nat.eqb_refl.
  eexists. split; [reflexivity|]. split; [reflexivity|]. intros n c f Hn Hc Hf.
  destruct (ix_ravel _ N C F n c f H Hn Hc Hf) as (H1 & H2 & _). cbn [get].
  replace (ravel [N; C * F]%nat [n; c * F + f]%nat) with (ravel [N; C; F] [n; c; f]) by (cbn [ravel numel]; ring).
  rewrite <- H2, unravel_ravel by auto. reflexivity.
Qed.
Lemma size1 {A} (t : tensor A) a b : shape t = [a; b] -> size t 0 = a /\ size t 1 = b.
Proof. unfold size. intros ->. auto. Qed.
Lemma keep_lt nf s i : In i (keep_idx nf s) -> (i < nf)%nat /\ ~ In i s.
Proof.
  unfold keep_idx. intros H. apply filter_In in H as [H1 H2]. apply in_seq in H1. split; [lia|]. intros K.
  rewrite negb_true_iff in H2. rewrite <- not_true_iff_false in H2. apply H2. apply existsb_exists. exists i. split; auto. apply Nat.eqb_refl.
Qed.
Lemma keep_in nf s i : (i < nf)%nat -> ~ In i s -> In i (keep_idx nf s).
Proof.
  intros H1 H2. apply filter_In. split; [apply in_seq; lia|]. rewrite negb_true_iff, <- not_true_iff_false. intros K.
  apply existsb_exists in K as (j & Hj & E). apply Nat.eqb_eq in E. congruence.
Qed.
Lemma index_cols {A} (t : tensor A) a b l : shape t = [a; b] -> (forall i, In i l -> (i < b)%nat) ->
  exists y, index_dim 1 (idx_tensor l) t = Ok y /\ shape y = [a; length l] /\ forall i j, get y [i; j] = get t [i; nth j l 0%nat].
Proof.
  intros Hs Hl. unfold index_dim. cbn [idx_tensor shape]. destruct (size1 t a b Hs) as [_ S1]. rewrite S1.
  replace (forallb _ _) with true.
  - eexists. split; [reflexivity|]. split; [rewrite Hs; reflexivity|]. intros i j. reflexivity.
  - symmetry. apply forallb_forall. intros i Hi. apply in_seq in Hi. apply Nat.ltb_lt. apply Hl. cbn [idx_tensor get nth]. apply nth_In. lia.
Qed.

Section Predict.
Context {V : Type}.
Variables (val : V -> R) (N C F K : nat) (cents : tensor R) (x : tensor (option V)).
Hypothesis Hx : wshape (shape x) N C F.
Hypothesis HN : (0 < N)%nat.
Hypothesis Hc : shape cents = [K; C * F]%nat.

Lemma predict_all nf : exists y, shape y = [N; C * F]%nat /\
  (forall n c f, (n < N)%nat -> (c < C)%nat -> (f < F)%nat -> get y [n; c * F + f]%nat = entry x n c f) /\
  predict_cluster val nf cents x None =
  Ok (map (fun n => nargmax K (fun k => euc_sim (C * F) (fun j => cell val (get y [n; j])) (fun j => get cents [k; j]))) (seq 0 N)).
Proof.
  destruct (view_rows x N C F Hx HN) as (y & Ey & Sy & Gy). exists y. split; auto. split; auto.
  unfold predict_cluster. rewrite Ey. cbn [bind]. destruct (size1 _ _ _ Sy) as [-> ->]. destruct (size1 _ _ _ Hc) as [-> ->].
  rewrite Nat.eqb_refl. reflexivity.
Qed.
Lemma predict_kept s : (0 < C)%nat -> predict_cluster val F cents x (Some s) =
  Ok (map (fun n => nargmax K (fun k => euc_sim (length (keep_idx F s)) (fun j => cell val (entry x n 0 (nth j (keep_idx F s) 0%nat)))
        (fun j => get cents [k; nth j (keep_idx F s) 0%nat]))) (seq 0 N)).
Proof.
  intros C0. destruct (view_rows x N C F Hx HN) as (y & Ey & Sy & Gy). unfold predict_cluster. rewrite Ey. cbn [bind].
  assert (B: forall i, In i (keep_idx F s) -> (i < C * F)%nat) by (intros i Hi; apply keep_lt in Hi as [Hi _]; nia).
  destruct (index_cols cents _ _ (keep_idx F s) Hc B) as (b & Eb & Sb & Gb). rewrite Eb. cbn [bind].
  destruct (index_cols y _ _ (keep_idx F s) Sy B) as (a & Ea & Sa & Ga). rewrite Ea. cbn [bind].
  destruct (size1 _ _ _ Sa) as [-> ->]. destruct (size1 _ _ _ Sb) as [-> ->]. rewrite Nat.eqb_refl. f_equal.
  apply map_ext_in. intros n Hn. apply in_seq in Hn. apply nargmax_ext. intros k Hk.
  assert (X: forall j, (j < length (keep_idx F s))%nat -> cell val (get a [n; j]) = cell val (entry x n 0 (nth j (keep_idx F s) 0%nat))).
  { intros j Hj. rewrite Ga. specialize (Gy n 0%nat (nth j (keep_idx F s) 0%nat)). change (0 * F)%nat with 0%nat in Gy.
    rewrite Nat.add_0_l in Gy. rewrite Gy; auto; try lia. apply (keep_lt F s), nth_In. auto. }
  unfold euc_sim. rewrite (nsum_ext _ _ (fun j => nmul (nmul (Fin 2) (cell val (entry x n 0 (nth j (keep_idx F s) 0%nat)))) (Fin (get cents [k; nth j (keep_idx F s) 0%nat])))).
  - rewrite (nsum_ext _ (fun j => nmul (cell val (get a [n; j])) _) (fun j => nmul (cell val (entry x n 0 (nth j (keep_idx F s) 0%nat))) (cell val (entry x n 0 (nth j (keep_idx F s) 0%nat))))).
    + do 2 f_equal. apply rsum_ext. intros j _. rewrite Gb. reflexivity.
    + intros j Hj. rewrite X by auto. reflexivity.
  - intros j Hj. rewrite X, Gb by auto. reflexivity.
Qed.
End Predict.
Lemma rsum_kept F s (g : nat -> R) : rsum (length (keep_idx F s)) (fun j => g (nth j (keep_idx F s) 0%nat)) =
  rsum F (fun f => if existsb (Nat.eqb f) s then 0 else g f).
Proof.
  transitivity (lsum g (keep_idx F s)).
  - generalize (keep_idx F s). intros l. unfold rsum. rewrite <- (lsum_map (fun j => nth j l 0%nat) g). f_equal.
    clear. induction l as [|a l IH]; [reflexivity|]. cbn [length seq map nth]. f_equal. rewrite <- seq_shift, map_map. exact IH.
  - unfold keep_idx. rewrite lsum_filter. unfold rsum. apply lsum_ext. intros f _. destruct (existsb (Nat.eqb f) s); reflexivity.
Qed.
Lemma rsum_pairs C F (g : nat -> R) : rsum (C * F) g = rsum C (fun c => rsum F (fun f => g (c * F + f)%nat)).
Proof. apply rsum_mul. Qed.

(** * The initial weights *)
Lemma count_sum (l : list nat) m : (forall k, In k l -> (k < m)%nat) -> list_sum (map (fun k => count_occ Nat.eq_dec l k) (seq 0 m)) = length l.
Proof.
  induction l as [|a l IH]; intros H.
  - cbn [count_occ length]. clear. induction (seq 0 m); cbn [map list_sum fold_right]; auto.
  - cbn [length]. rewrite <- IH by (intros; apply H; right; auto).
    assert (Ha: (a < m)%nat) by (apply H; left; auto). clear IH H.
    assert (E: seq 0 m = seq 0 a ++ a :: seq (S a) (m - S a)).
    { replace m with (a + S (m - S a))%nat at 1 by lia. rewrite seq_app. cbn [seq]. rewrite Nat.add_0_l. reflexivity. }
    rewrite E, !map_app. cbn [map]. rewrite !list_sum_app.
    change (list_sum (?u :: ?v)) with (u + list_sum v)%nat.
    assert (L: forall s, ~ In a s -> map (fun k => count_occ Nat.eq_dec (a :: l) k) s = map (fun k => count_occ Nat.eq_dec l k) s).
    { intros s Hs. apply map_ext_in. intros k Hk. apply count_occ_cons_neq. intros ->. contradiction. }
    rewrite !L by (rewrite in_seq; lia). rewrite count_occ_cons_eq by reflexivity.
    unfold list_sum at 2 4. cbn [fold_right]. lia.
Qed.
Lemma INR_list_sum l : INR (list_sum l) = lsum INR l.
Proof. induction l as [|a l IH]; [reflexivity|]. change (list_sum (a :: l)) with (a + list_sum l)%nat. rewrite plus_INR, IH. reflexivity. Qed.
Lemma list_max_lt (l : list nat) k : In k l -> (k < S (list_max l))%nat.
Proof. intros H. pose proof (proj1 (list_max_le l (list_max l)) (le_n _)) as G. rewrite Forall_forall in G. specialize (G k H). lia. Qed.
Lemma bincount_sum l : l <> [] -> list_sum (bincount l) = length l.
Proof. intros H. unfold bincount. destruct l as [|a l]; [contradiction|]. apply count_sum. intros k Hk. apply list_max_lt. auto. Qed.
