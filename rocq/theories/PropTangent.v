(** Theorems about the gradients of differentiable samples (C86).  Derivatives are Coq's [derivable_pt_lim]; the mean over the uniform
    numbers behind the draws is [mean] of Mean.v. *)
From Coq Require Import List Arith Lia Bool ZArith Reals Lra.
Import ListNotations.
From Verif Require Import Base RSum Num Tensor Prob Layers Circuit Net RefFwd RefSample RefConv Content RefGumbel Mean Diff RefDiff PropDiff PropGumbel RefGrad Tangent RefTangent.
Local Open Scope R_scope.
Local Arguments Nat.div : simpl never. Local Arguments Nat.modulo : simpl never. Local Arguments Nat.sub : simpl never.
Local Arguments Nat.mul : simpl never. Local Arguments Nat.add : simpl never.

(** * Vocabulary *)
(** The softmax of the logits [f / T] when they move along the direction [t] *)
Definition soft (K : nat) (T : R) (f t : nat -> R) (h : R) (k : nat) : R := exp ((f k + h * t k) / T) / rsum K (fun j => exp ((f j + h * t j) / T)).
(** [a] holds finite numbers [f] with derivatives [t]: [dual3] of RefTangent.v. *)
Definition noise3 (u : list nat -> R) (N D K : nat) : Prop := forall n d k, (n < N)%nat -> (d < D)%nat -> (k < K)%nat -> 0 <= u [n; d; k] < 1.
Definition one_hot_at (a : dual) (K n d k : nat) : Prop := (k < K)%nat /\ forall j, (j < K)%nat -> get (primal a) [n; d; j] = Fin (if (j =? k)%nat then 1 else 0).
Definition value (r : res dual) (n d : nat) : R := match r with Ok o => toR (get (primal o) [n; d]) | Err _ => 0 end.
Definition slope (r : res dual) (n d : nat) : R := match r with Ok o => toR (get (tangent o) [n; d]) | Err _ => 0 end.

Lemma noise_entries u N D K : cube (entries N D K) u -> noise3 u N D K.
Proof. intros H n d k Hn Hd Hk. apply H, in_entries; auto. Qed.
Lemma soft_lim K T f t k : T <> 0 -> (k < K)%nat -> derivable_pt_lim (fun h => soft K T f t h k) 0 (dweight K T f t k).
Proof. intros. apply dweight_lim; auto. Qed.
Lemma dlim_unique (f : R -> R) a b : derivable_pt_lim f 0 a -> derivable_pt_lim f 0 b -> a = b.
Proof. apply uniqueness_limite. Qed.
Lemma mean_soft_lim K T f t (v : nat -> R) : T <> 0 -> derivable_pt_lim (fun h => rsum K (fun k => soft K T f t h k * v k)) 0 (rsum K (fun k => v k * dweight K T f t k)).
Proof.
  intros HT. apply dlim_rsum. intros k Hk. eapply dlim_eq; [|apply (derivable_pt_lim_mult (fun h => soft K T f t h k) (fun _ => v k) 0 _ 0 (soft_lim K T f t k HT Hk) (derivable_pt_lim_const (v k) 0))]. unfold fct_cte. ring.
Qed.
Lemma soft_0 K T f t k : T <> 0 -> soft K T f t 0 k = rsoftmax K (fun j => f j / T) k.
Proof. intros HT. unfold soft, rsoftmax. rewrite Rmult_0_l, Rplus_0_r. f_equal. apply rsum_ext. intros j _. rewrite Rmult_0_l, Rplus_0_r. reflexivity. Qed.
Lemma soft_ext K T f t t' h k : (k < K)%nat -> (forall j, (j < K)%nat -> t j = t' j) -> soft K T f t h k = soft K T f t' h k.
Proof. intros Hk H. unfold soft. rewrite (H k Hk). f_equal. apply rsum_ext. intros j Hj. rewrite (H j Hj). reflexivity. Qed.
Lemma full_lim K T f t (v dv : nat -> R) : T <> 0 ->
  derivable_pt_lim (fun h => rsum K (fun k => soft K T f t h k * (v k + h * dv k))) 0 (rsum K (fun k => rsoftmax K (fun j => f j / T) k * dv k) + rsum K (fun k => v k * dweight K T f t k)).
Proof.
  intros HT. rewrite <- rsum_plus. apply dlim_rsum. intros k Hk.
  assert (L: derivable_pt_lim (fun h => v k + h * dv k) 0 (dv k)).
  { eapply dlim_eq; [|apply (derivable_pt_lim_plus (fun _ => v k) (fun h => h * dv k) 0 0 (dv k))]; [ring|apply derivable_pt_lim_const|].
    eapply dlim_ext; [|eapply dlim_eq; [|apply (derivable_pt_lim_scal (fun h => h) (dv k) 0 1 (derivable_pt_lim_id 0))]]; [intros h; unfold mult_real_fct; ring|ring]. }
  eapply dlim_eq; [|apply (derivable_pt_lim_mult (fun h => soft K T f t h k) (fun h => v k + h * dv k) 0 _ _ (soft_lim K T f t k HT Hk) L)]. rewrite soft_0 by auto. ring.
Qed.

(** * One choice *)
(** The differentiable choice of a sum layer is one-hot, the values are those of the choice without gradients, and whatever the noise was,
    the derivative of every entry is the derivative of its softmax weight along the direction in which the logits move. *)
Theorem C86_choice : forall u mpe T g N D K f t, (0 < K)%nat -> T <> 0 -> dual3 g N D K f t -> noise3 u N D K ->
  exists i, dual_choice u mpe T g = Ok i /\ SIMPLE u mpe (logits_to_log_weights (primal g) 2 T) 2 = Ok (primal i) /\
    forall n d, (n < N)%nat -> (d < D)%nat -> (exists k, one_hot_at i K n d k) /\
      forall k, (k < K)%nat -> exists s, get (tangent i) [n; d; k] = Fin s /\ derivable_pt_lim (fun h => soft K T (f n d) (t n d) h k) 0 s.
Proof.
  intros u mpe T g N D K f t HK HT Hg Hu. destruct (choice_ok u mpe T g N D K f t HK HT Hg Hu) as (i & E & Es & _ & _ & G). exists i. split; auto. split; auto.
  intros n d Hn Hd. split.
  - exists (picked K (lweight K T (f n d)) mpe (fun k => u [n; d; k])). split; [apply picked_lt; auto|]. intros j Hj. apply G; auto.
  - intros k Hk. exists (dweight K T (f n d) (t n d) k). split; [apply G; auto|apply soft_lim; auto].
Qed.
Print Assumptions C86_choice.

(** * A sum layer above leaves *)
Lemma sample1_ok u mpe T g v N D K f t a b : (0 < K)%nat -> T <> 0 -> dual3 g N D K f t -> dual3 v N D K a b -> noise3 u N D K ->
  exists o, dual_sample1 u mpe T g v = Ok o /\ dual2 o N D
    (fun n d => a n d (picked K (lweight K T (f n d)) mpe (fun k => u [n; d; k])))
    (fun n d => b n d (picked K (lweight K T (f n d)) mpe (fun k => u [n; d; k])) + rsum K (fun k => a n d k * dweight K T (f n d) (t n d) k)).
Proof.
  intros HK HT Hg Hv Hu. destruct (choice_ok u mpe T g N D K f t HK HT Hg Hu) as (i & E & _ & Hi). destruct (leaf_ok3 v i N D K a b _ _ Hv Hi) as (o & Eo & _ & So & St & Go).
  exists o. unfold dual_sample1. rewrite E. cbn [bind]. split; auto. split; auto. split; auto. intros n d Hn Hd. destruct (Go n d Hn Hd) as [-> ->]. split; f_equal.
  - apply rsum_pick. apply picked_lt; auto.
  - rewrite rsum_plus. f_equal. apply rsum_pick. apply picked_lt; auto.
Qed.
(** The sample is the value of the chosen leaf.  Its derivative is the one of the chosen leaf plus the derivative of the leaf values
    weighted by the moving softmax. *)
Theorem C86_sample : forall u mpe T g v N D K f t a b n d, (0 < K)%nat -> T <> 0 -> dual3 g N D K f t -> dual3 v N D K a b -> noise3 u N D K ->
  (n < N)%nat -> (d < D)%nat -> exists o i k s, dual_sample1 u mpe T g v = Ok o /\ dual_choice u mpe T g = Ok i /\ one_hot_at i K n d k /\
    get (primal o) [n; d] = Fin (a n d k) /\ get (tangent o) [n; d] = Fin (b n d k + s) /\
    derivable_pt_lim (fun h => rsum K (fun j => soft K T (f n d) (t n d) h j * a n d j)) 0 s.
Proof.
  intros u mpe T g v N D K f t a b n d HK HT Hg Hv Hu Hn Hd. destruct (sample1_ok u mpe T g v N D K f t a b HK HT Hg Hv Hu) as (o & E & _ & _ & G).
  destruct (choice_ok u mpe T g N D K f t HK HT Hg Hu) as (i & Ei & _ & _ & _ & Gi). destruct (G n d Hn Hd) as [G1 G2].
  exists o, i, (picked K (lweight K T (f n d)) mpe (fun k => u [n; d; k])), (rsum K (fun k => a n d k * dweight K T (f n d) (t n d) k)).
  split; auto. split; auto. split; [split; [apply picked_lt; auto|intros j Hj; apply Gi; auto]|]. split; auto. split; auto. apply mean_soft_lim. auto.
Qed.
Print Assumptions C86_sample.

(** * The mean of the gradient *)
Lemma lweight_soft K T f k : (0 < K)%nat -> exp (lweight K T f k) / rsum K (fun j => exp (lweight K T f j)) = rsoftmax K (fun j => f j / T) k.
Proof.
  intros HK. unfold lweight. rewrite exp_ln by (apply rsoftmax_pos; auto). rewrite (rsum_ext K (fun j => exp (ln (rsoftmax K (fun j => f j / T) j))) (rsoftmax K (fun j => f j / T))) by (intros j _; apply exp_ln, rsoftmax_pos; auto).
  rewrite rsoftmax_sum by auto. unfold Rdiv. rewrite Rinv_1, Rmult_1_r. reflexivity.
Qed.
Lemma mean_ext I h h' v : (forall u, h u = h' u) -> mean I h v -> mean I h' v.
Proof. intros E Hm x Hx. destruct (Hm x Hx) as (lo & hi & W1 & W2 & B & M). exists lo, hi. split; auto. split; auto. split; auto. intros u Hu. rewrite <- E. auto. Qed.
(** The choice at one place of a tensor *)
Lemma place_content N D K n d (w : nat -> R) k : (k < K)%nat -> (n < N)%nat -> (d < D)%nat ->
  {p : R | content (entries N D K) (fun u => picked K w false (fun k => u [n; d; k]) = k) p /\ Rabs (p - exp (w k) / rsum K (fun j => exp (w j))) <= (INR K + 2) * / 10 ^ 20}.
Proof.
  intros Hk Hn Hd. destruct (wins_softmax K w k Hk (fun k => [n; d; k]) ltac:(intros; congruence)) as (p & Hp & B). exists p. split; [|exact B].
  set (A := fun (n' d' : nat) (u : entry_of -> R) => (n' = n /\ d' = d) -> picked K w false (fun k => u [n; d; k]) = k).
  set (q := fun n' d' : nat => if (n' =? n)%nat && (d' =? d)%nat then p else 1).
  apply content_ext with (A := fun u => forall n', In n' (seq 0 N) -> forall d', In d' (seq 0 D) -> A n' d' u).
  - intros u _. unfold A. split; [intros H; apply (H n ltac:(apply in_seq; lia) d ltac:(apply in_seq; lia)); auto|intros H n' _ d' _ _; exact H].
  - replace p with (rprod N (fun n' => rprod D (fun d' => q n' d'))).
    + apply (content_family (seq 0 N) (fun n => flat_map (fun d => map (fun k => [n; d; k]) (seq 0 K)) (seq 0 D)) (fun n' u => forall d', In d' (seq 0 D) -> A n' d' u) (fun n' => rprod D (fun d' => q n' d'))); [apply nodup_entries|].
      intros n' _. apply (content_family (seq 0 D) (fun d => map (fun k => [n'; d; k]) (seq 0 K)) (fun d' => A n' d') (fun d' => q n' d')).
      * apply nodup_flat_map; [apply seq_NoDup|intros; apply nodup_rows|]. intros x y i _ _ H1 H2. apply in_map_iff in H1 as (? & <- & _). apply in_map_iff in H2 as (? & E & _). congruence.
      * intros d' _. unfold q, A. destruct (Nat.eqb_spec n' n) as [->|H1]; cbn [andb]; [destruct (Nat.eqb_spec d' d) as [->|H1]|].
        -- eapply content_ext; [|exact Hp]. intros u _. unfold wins, picked. split; [intros H _; exact H|intros H; apply H; auto].
        -- eapply content_ext; [|apply content_cube]. intros u _. split; [intros _ [_ H]; contradiction|auto].
        -- eapply content_ext; [|apply content_cube]. intros u _. split; [intros _ [H _]; contradiction|auto].
    + unfold q. rewrite (rprod_single N n); [|exact Hn|].
      * rewrite (rprod_single D d); [rewrite !Nat.eqb_refl; reflexivity|exact Hd|]. intros d' _ H. destruct (Nat.eqb_spec d' d); [contradiction|]. rewrite andb_false_r. reflexivity.
      * intros n' _ H. rewrite (rprod_ext D _ (fun _ => 1)); [apply rprod_one|]. intros d' _. destruct (Nat.eqb_spec n' n); [contradiction|reflexivity].
Qed.
Lemma rsum_abs_le m (f h : nat -> R) : (forall i, (i < m)%nat -> Rabs (f i) <= h i) -> Rabs (rsum m f) <= rsum m h.
Proof.
  induction m as [|m IH]; intros H; [rewrite !rsum_0, Rabs_R0; lra|]. rewrite !rsum_S. eapply Rle_trans; [apply Rabs_triang|]. apply Rplus_le_compat; auto.
Qed.
(** A number that depends on the choice at one place *)
Lemma place_mean N D K n d T f (h : (entry_of -> R) -> R) val s : (0 < K)%nat -> (n < N)%nat -> (d < D)%nat ->
  (forall u, cube (entries N D K) u -> h u = val (picked K (lweight K T f) false (fun k => u [n; d; k])) + s) ->
  exists m, mean (entries N D K) h (m + s) /\ Rabs (m - rsum K (fun k => rsoftmax K (fun j => f j / T) k * val k)) <= (INR K + 2) * / 10 ^ 20 * rsum K (fun k => Rabs (val k)).
Proof.
  intros HK Hn Hd Hh. set (w := lweight K T f) in *.
  set (p := fun k => match lt_dec k K with left H => proj1_sig (place_content N D K n d w k H Hn Hd) | right _ => 0 end).
  assert (Hp: forall k, (k < K)%nat -> content (entries N D K) (fun u => picked K w false (fun k => u [n; d; k]) = k) (p k) /\ Rabs (p k - rsoftmax K (fun j => f j / T) k) <= (INR K + 2) * / 10 ^ 20).
  { intros k Hk. unfold p. destruct (lt_dec k K) as [H|]; [|contradiction]. destruct (place_content N D K n d w k H Hn Hd) as (q & Hq & B). cbn [proj1_sig]. split; auto. unfold w in B. rewrite lweight_soft in B by auto. exact B. }
  clearbody p. set (cs := map (fun k => mkPart (fun u => picked K w false (fun k => u [n; d; k]) = k) (p k) (val k + s)) (seq 0 K)).
  assert (Cs: forall x, In x cs -> exists k, (k < K)%nat /\ x = mkPart (fun u => picked K w false (fun k => u [n; d; k]) = k) (p k) (val k + s)).
  { intros x Hx. apply in_map_iff in Hx as (k & <- & Hk). apply in_seq in Hk. exists k. split; [lia|reflexivity]. }
  assert (Pt: partition (entries N D K) cs).
  { split; [|split].
    - unfold cs. generalize (seq_NoDup K 0). generalize (seq 0 K). induction l as [|k l IH]; intros HN; [constructor|]. inversion HN; subst. cbn [map]. constructor; [|apply IH; auto].
      apply Forall_forall. intros y Hy u _ H1' H2'. apply in_map_iff in Hy as (k' & <- & Hk'). cbn [p_set] in *. rewrite H1' in H2'. subst k'. contradiction.
    - intros u _. eexists. split; [apply in_map_iff; eexists; split; [reflexivity|apply in_seq; split; [lia|apply (picked_lt K w false (fun k => u [n; d; k]) HK)]]|]. reflexivity.
    - apply Forall_forall. intros x Hx. destruct (Cs x Hx) as (k & Hk & ->). cbn [p_set p_pr]. apply Hp; auto. }
  pose proof (nodup_entries N D K) as ND. pose proof (partition_one _ _ ND Pt) as One. unfold cs in One. rewrite lsum_map in One. cbn [p_pr] in One. change (rsum K p = 1) in One.
  exists (rsum K (fun k => p k * val k)). split.
  - replace (rsum K (fun k => p k * val k) + s) with (lsum (fun x => p_pr x * p_val x) cs).
    2:{ unfold cs. rewrite lsum_map. cbn [p_pr p_val]. fold (rsum K (fun k => p k * (val k + s))). rewrite (rsum_ext K _ (fun k => p k * val k + s * p k)) by (intros; ring). rewrite rsum_plus, rsum_scal_l. rewrite One. ring. }
     apply mean_parts; auto.
    intros u x Hu Hx Hxu. destruct (Cs x Hx) as (k & Hk & ->). cbn [p_set p_val] in *. rewrite Hh, Hxu by auto. reflexivity.
  - rewrite <- rsum_minus, <- rsum_scal_l. apply rsum_abs_le. intros k Hk.
    replace (p k * val k - rsoftmax K (fun j => f j / T) k * val k) with ((p k - rsoftmax K (fun j => f j / T) k) * val k) by ring. rewrite Rabs_mult. apply Rmult_le_compat_r; [apply Rabs_pos|]. apply Hp; auto.
Qed.
(** Averaged over the noise, the gradient of a sample is the gradient of the expected sample, up to the 1e-20 of the Gumbel noise.  If the
    leaf values stand still then every single gradient is. *)
Theorem C86_unbiased : forall T g v N D K f t a b n d, (0 < K)%nat -> T <> 0 -> dual3 g N D K f t -> dual3 v N D K a b -> (n < N)%nat -> (d < D)%nat ->
  exists m m', mean (entries N D K) (fun u => slope (dual_sample1 u false T g v) n d) m /\
    derivable_pt_lim (fun h => rsum K (fun k => soft K T (f n d) (t n d) h k * (a n d k + h * b n d k))) 0 m' /\
    Rabs (m - m') <= (INR K + 2) * / 10 ^ 20 * rsum K (fun k => Rabs (b n d k)) /\
    ((forall k, (k < K)%nat -> b n d k = 0) -> forall u mpe, noise3 u N D K -> slope (dual_sample1 u mpe T g v) n d = m').
Proof.
  intros T g v N D K f t a b n d HK HT Hg Hv Hn Hd. set (s := rsum K (fun k => a n d k * dweight K T (f n d) (t n d) k)).
  assert (Sl: forall u mpe, noise3 u N D K -> slope (dual_sample1 u mpe T g v) n d = b n d (picked K (lweight K T (f n d)) mpe (fun k => u [n; d; k])) + s).
  { intros u mpe Hu. destruct (sample1_ok u mpe T g v N D K f t a b HK HT Hg Hv Hu) as (o & E & _ & _ & G). unfold slope. rewrite E, (proj2 (G n d Hn Hd)). reflexivity. }
  destruct (place_mean N D K n d T (f n d) (fun u => slope (dual_sample1 u false T g v) n d) (b n d) s HK Hn Hd) as (m & Hm & B).
  { intros u Hu. apply Sl. apply noise_entries; auto. }
  exists (m + s), (rsum K (fun k => rsoftmax K (fun j => f n d j / T) k * b n d k) + s). split; [|split; [|split]].
  - exact Hm.
  - apply full_lim; auto.
  - replace (m + s - (rsum K (fun k => rsoftmax K (fun j => f n d j / T) k * b n d k) + s)) with (m - rsum K (fun k => rsoftmax K (fun j => f n d j / T) k * b n d k)) by ring. exact B.
  - intros Hb u mpe Hu. rewrite Sl, Hb by (auto; apply picked_lt; auto). rewrite (rsum_ext K _ (fun _ => 0)); [rewrite rsum_zero; reflexivity|]. intros k Hk. rewrite Hb by auto. ring.
Qed.
Print Assumptions C86_unbiased.

(** * Two sum layers *)
Lemma sample2_ok u mpe T g lg v N D S O f t a b c e : (0 < S)%nat -> (0 < O)%nat -> T <> 0 -> dual3 g N D O f t -> dual3 lg D S O a b -> dual3 v N D S c e -> noise3 u N D O ->
  let up n d := picked O (lweight O T (f n d)) mpe (fun o => u [n; d; o]) in
  exists p h, dual_choice u mpe T g = Ok p /\ (forall n d, (n < N)%nat -> (d < D)%nat -> one_hot_at p O n d (up n d)) /\
    (forall u', dual_sample2 u u' mpe T g lg v = dual_sample1 u' mpe T h v) /\
    dual3 h N D S (fun n d s => a d s (up n d)) (fun n d s => b d s (up n d) + rsum O (fun o => a d s o * dweight O T (f n d) (t n d) o)).
Proof.
  intros HS HO HT Hg Hl Hv Hu up. destruct (choice_ok u mpe T g N D O f t HO HT Hg Hu) as (p & Ep & _ & Hp). destruct (select_ok lg p N D S O a b _ _ Hl Hp) as (h & Eh & Sh & Th & Gh).
  exists p, h. split; auto. split. { intros n d Hn Hd. split; [apply picked_lt; auto|]. intros j Hj. apply Hp; auto. }
  split; [intros u'; unfold dual_sample2; rewrite Ep; cbn [bind]; rewrite Eh; reflexivity|]. split; auto. split; auto. intros n d s Hn Hd Hs. destruct (Gh n d s Hn Hd Hs) as [-> ->]. split; f_equal.
  - apply rsum_pick. apply picked_lt; auto.
  - rewrite rsum_plus. f_equal. apply rsum_pick. apply picked_lt; auto.
Qed.
(** The upper choice is some [p] and the lower one some [k], and the sample is the leaf value [k].  The logits of node [p] move in their own
    direction [b] and in the direction [m] in which the upper softmax moves the mean of the logits over all nodes.  The sample moves with the
    lower softmax along the sum of both. *)
Theorem C86_two_layers : forall u u' mpe T g lg v N D S O f t a b c e n d, (0 < S)%nat -> (0 < O)%nat -> T <> 0 ->
  dual3 g N D O f t -> dual3 lg D S O a b -> dual3 v N D S c e -> noise3 u N D O -> noise3 u' N D S -> (n < N)%nat -> (d < D)%nat ->
  exists o i p k m s, dual_sample2 u u' mpe T g lg v = Ok o /\ dual_choice u mpe T g = Ok i /\ one_hot_at i O n d p /\ (k < S)%nat /\
    get (primal o) [n; d] = Fin (c n d k) /\ get (tangent o) [n; d] = Fin (e n d k + s) /\
    (forall j, (j < S)%nat -> derivable_pt_lim (fun h => rsum O (fun q => soft O T (f n d) (t n d) h q * a d j q)) 0 (m j)) /\
    derivable_pt_lim (fun h => rsum S (fun j => soft S T (fun j => a d j p) (fun j => b d j p + m j) h j * c n d j)) 0 s.
Proof.
  intros u u' mpe T g lg v N D S O f t a b c e n d HS HO HT Hg Hl Hv Hu Hu' Hn Hd. destruct (sample2_ok u mpe T g lg v N D S O f t a b c e HS HO HT Hg Hl Hv Hu) as (i & h & Ei & Hi & E & Hh).
  destruct (sample1_ok u' mpe T h v N D S _ _ c e HS HT Hh Hv Hu') as (o & Eo & _ & _ & G). destruct (G n d Hn Hd) as [G1 G2].
  eexists o, i, _, _, (fun j => rsum O (fun q => a d j q * dweight O T (f n d) (t n d) q)), _. rewrite E. split; [exact Eo|]. split; [exact Ei|]. split; [apply Hi; auto|]. split; [|split; [exact G1|]]; [apply picked_lt; auto|].
  split; [exact G2|]. split; [|apply mean_soft_lim; auto]. intros j _. apply mean_soft_lim; auto.
Qed.
Print Assumptions C86_two_layers.
(** Gradients of the layer above the leaves are right on average whatever the upper layer chose, as long as only they move. *)
Theorem C86_lower_unbiased : forall u T g lg v N D S O f a b c e n d, (0 < S)%nat -> (0 < O)%nat -> T <> 0 ->
  dual3 g N D O f (fun _ _ _ => 0) -> dual3 lg D S O a b -> dual3 v N D S c e -> noise3 u N D O -> (n < N)%nat -> (d < D)%nat ->
  exists i p m m', dual_choice u false T g = Ok i /\ one_hot_at i O n d p /\
    mean (entries N D S) (fun u' => slope (dual_sample2 u u' false T g lg v) n d) m /\
    derivable_pt_lim (fun h => rsum S (fun k => soft S T (fun j => a d j p) (fun j => b d j p) h k * (c n d k + h * e n d k))) 0 m' /\
    Rabs (m - m') <= (INR S + 2) * / 10 ^ 20 * rsum S (fun k => Rabs (e n d k)).
Proof.
  intros u T g lg v N D S O f a b c e n d HS HO HT Hg Hl Hv Hu Hn Hd. destruct (sample2_ok u false T g lg v N D S O f _ a b c e HS HO HT Hg Hl Hv Hu) as (i & h & Ei & Hi & E & Hh).
  assert (Z: forall o, dweight O T (f n d) (fun _ => 0) o = 0).
  { intros o. unfold dweight, smean. rewrite (rsum_ext O _ (fun _ => 0)) by (intros; field; auto). rewrite rsum_zero. field. auto. }
  destruct (C86_unbiased T h v N D S _ _ c e n d HS HT Hh Hv Hn Hd) as (m & m' & Hm & Hm' & B & _). eexists i, _, m, m'. split; [exact Ei|]. split; [apply Hi; auto|]. split; [|split; [|exact B]].
  - eapply mean_ext; [|exact Hm]. intros u'. cbv beta. rewrite E. reflexivity.
  - eapply dlim_ext; [|exact Hm']. intros x. apply rsum_ext. intros k Hk. f_equal. apply soft_ext; auto. intros j Hj. rewrite (rsum_ext O _ (fun _ => 0)) by (intros; rewrite Z; ring). rewrite rsum_zero. ring.
Qed.
Print Assumptions C86_lower_unbiased.

(** * Concrete cases *)
Definition moving (N D K : nat) (f t : nat -> nat -> nat -> R) : dual :=
  mkDual (mkT [N; D; K] (fun i => Fin (f (nth 0 i 0%nat) (nth 1 i 0%nat) (nth 2 i 0%nat)))) (mkT [N; D; K] (fun i => Fin (t (nth 0 i 0%nat) (nth 1 i 0%nat) (nth 2 i 0%nat)))).
Lemma moving_ok N D K f t : dual3 (moving N D K f t) N D K f t.
Proof. split; [reflexivity|]. split; [reflexivity|]. intros; split; reflexivity. Qed.
(** Logits 0 and ln 3 of which the second one grows, leaf values 5 and 9 of which the first one grows at rate 4: the expected sample is
    8 and grows at rate 4 (1/4) + (9 - 5) (3/16) = 7/4. *)
Example C86_ex : let g := moving 1 1 2 (fun _ _ k => if (k =? 0)%nat then 0 else ln 3) (fun _ _ k => if (k =? 0)%nat then 0 else 1) in
  let v := moving 1 1 2 (fun _ _ k => if (k =? 0)%nat then 5 else 9) (fun _ _ k => if (k =? 0)%nat then 4 else 0) in
  exists m, mean (entries 1 1 2) (fun u => slope (dual_sample1 u false 1 g v) 0 0) m /\ Rabs (m - 7 / 4) <= 16 * / 10 ^ 20.
Proof.
  intros g v. destruct (C86_unbiased 1 g v 1 1 2 _ _ _ _ 0 0 ltac:(lia) ltac:(lra) (moving_ok _ _ _ _ _) (moving_ok _ _ _ _ _) ltac:(lia) ltac:(lia)) as (m & m' & Hm & L & B & _).
  exists m. split; auto. replace (7 / 4) with m'.
  - eapply Rle_trans; [exact B|]. unfold rsum. cbn [seq lsum Nat.eqb]. rewrite (Rabs_pos_eq 4), Rabs_R0 by lra. simpl INR. lra.
  - apply (dlim_unique _ _ _ L). eapply dlim_eq; [|apply full_lim; lra]. unfold dweight, smean, rsoftmax, rsum. cbn [seq lsum Nat.eqb]. replace (0 / 1) with 0 by lra. replace (ln 3 / 1) with (ln 3) by lra. rewrite exp_0, exp_ln by lra. field.
Qed.

(** * The gradient of an upper layer is biased *)
(** Three nodes with equal upper weights that move along (1, -2, 1); the lower weights of the second leaf are 1/2, 2/3 and 4/5; the leaves
    have the values 0 and 1.  Every sampled gradient is zero, but the expected sample falls at rate 1/90. *)
Theorem C86_chain_refuted : exists T g lg v f t a c, T = 1 /\ dual3 g 1 1 3 f t /\ dual3 lg 1 2 3 a (fun _ _ _ => 0) /\ dual3 v 1 1 2 c (fun _ _ _ => 0) /\
  (forall u u' mpe, noise3 u 1 1 3 -> noise3 u' 1 1 2 -> exists o, dual_sample2 u u' mpe T g lg v = Ok o /\ get (tangent o) [0; 0]%nat = Fin 0) /\
  derivable_pt_lim (fun h => rsum 3 (fun q => soft 3 T (f 0%nat 0%nat) (t 0%nat 0%nat) h q * rsum 2 (fun j => soft 2 T (fun j => a 0%nat j q) (fun _ => 0) h j * c 0%nat 0%nat j))) 0 (- (1 / 90)).
Proof.
  set (f := fun _ _ _ : nat => 0). set (t := fun _ _ q : nat => if (q =? 1)%nat then -2 else 1). set (a := fun _ j q : nat => if (j =? 0)%nat then 0 else INR q * ln 2). set (c := fun _ _ j : nat => INR j).
  exists 1, (moving 1 1 3 f t), (moving 1 2 3 a (fun _ _ _ => 0)), (moving 1 1 2 c (fun _ _ _ => 0)), f, t, a, c. split; auto. split; [apply moving_ok|]. split; [apply moving_ok|]. split; [apply moving_ok|].
  assert (E0: exp (0 / 1) = 1) by (replace (0 / 1) with 0 by lra; apply exp_0).
  assert (Dw: forall q, (q < 3)%nat -> dweight 3 1 (f 0%nat 0%nat) (t 0%nat 0%nat) q = t 0%nat 0%nat q / 3).
  { intros q Hq. unfold dweight, smean, rsoftmax, rsum, f. cbn [seq lsum]. rewrite E0. unfold t. cbn [Nat.eqb]. field. }
  split.
  - intros u u' mpe Hu Hu'. destruct (sample2_ok u mpe 1 (moving 1 1 3 f t) (moving 1 2 3 a (fun _ _ _ => 0)) (moving 1 1 2 c (fun _ _ _ => 0)) 1 1 2 3 f t a (fun _ _ _ => 0) c (fun _ _ _ => 0) ltac:(lia) ltac:(lia) ltac:(lra) (moving_ok _ _ _ _ _) (moving_ok _ _ _ _ _) (moving_ok _ _ _ _ _) Hu) as (i & h & _ & _ & E & Hh).
    destruct (sample1_ok u' mpe 1 h (moving 1 1 2 c (fun _ _ _ => 0)) 1 1 2 _ _ c (fun _ _ _ => 0) ltac:(lia) ltac:(lra) Hh (moving_ok _ _ _ _ _) Hu') as (o & Eo & _ & _ & G).
    exists o. rewrite E. split; auto. rewrite (proj2 (G 0%nat 0%nat ltac:(lia) ltac:(lia))). f_equal.
    assert (Z: forall s, (s < 2)%nat -> 0 + rsum 3 (fun q => a 0%nat s q * dweight 3 1 (f 0%nat 0%nat) (t 0%nat 0%nat) q) = 0).
    { intros s Hs. rewrite (rsum_ext 3 _ (fun q => a 0%nat s q * (t 0%nat 0%nat q / 3))) by (intros q Hq; rewrite Dw by auto; reflexivity). unfold rsum, a, t. cbn [seq lsum Nat.eqb]. destruct (s =? 0)%nat; simpl INR; field. }
    rewrite Rplus_0_l. rewrite (rsum_ext 2 _ (fun _ => 0)); [apply rsum_zero|]. intros k Hk. unfold dweight at 1, smean. cbv beta. rewrite (Z k Hk). rewrite (rsum_ext 2 _ (fun _ => 0)); [rewrite rsum_zero; field|]. intros j Hj. rewrite (Z j Hj). field.
  - assert (V: forall q h, (q < 3)%nat -> rsum 2 (fun j => soft 2 1 (fun j => a 0%nat j q) (fun _ => 0) h j * c 0%nat 0%nat j) = nth q [1 / 2; 2 / 3; 4 / 5] 0).
    { intros q h Hq. unfold soft, rsum, c, a. cbn [seq lsum Nat.eqb]. rewrite !Rmult_0_r, !Rplus_0_r. simpl INR. rewrite E0.
      assert (E1: exp (ln 2 / 1) = 2) by (replace (ln 2 / 1) with (ln 2) by lra; apply exp_ln; lra).
      destruct q as [|[|[|q]]]; [| | |lia]; cbn [nth INR].
      - rewrite Rmult_0_l, E0. field.
      - rewrite Rmult_1_l, E1. field.
      - replace ((1 + 1) * ln 2 / 1) with (ln 2 + ln 2) by lra. rewrite exp_plus, exp_ln by lra. field. }
    eapply dlim_ext; [|eapply dlim_eq; [|apply (mean_soft_lim 3 1 (f 0%nat 0%nat) (t 0%nat 0%nat) (fun q => nth q [1 / 2; 2 / 3; 4 / 5] 0))]]; [| |lra].
    + intros h. apply rsum_ext. intros q Hq. rewrite V by auto. reflexivity.
    + rewrite (rsum_ext 3 _ (fun q => nth q [1 / 2; 2 / 3; 4 / 5] 0 * (t 0%nat 0%nat q / 3))) by (intros q Hq; rewrite Dw by auto; reflexivity). unfold rsum, t. cbn [seq lsum nth Nat.eqb]. field.
Qed.
Print Assumptions C86_chain_refuted.
