(** C59, C60: the clusters, the weights and the likelihood of a mixture. *)
From Coq Require Import List Arith Lia Bool ZArith Reals Lra Permutation.
Import ListNotations.
From Verif Require Import Base RSum Num Tensor Prob Layers Circuit Net RefFwd Leaf RefLeaf RefLeafS TypeChecks Einet RefNet RefEinet RefEinetS RefMpe Build RefBuild Spec RefSpec RefSpecS RefPack RefPost RefDensity Mixture RefMixture RefMixLaw PropMix PropMixLaw Cluster RefCluster Ex.
Local Open Scope R_scope.
Local Arguments Nat.div : simpl never.
Local Arguments Nat.modulo : simpl never.
Local Arguments Nat.sub : simpl never.
Local Arguments Nat.mul : simpl never.
Local Arguments Nat.add : simpl never.

(** * Vocabulary *)
Definition value {V} (val : V -> R) (x : tensor (option V)) (n c f : nat) : R := match entry x n c f with Some v => val v | None => 0 end.
(** Squared distance of row [n] and centroid [k]. *)
Definition far {V} (val : V -> R) (C F : nat) (cents : tensor R) (x : tensor (option V)) (n k : nat) : R :=
  rsum C (fun c => rsum F (fun f => (value val x n c f - get cents [k; c * F + f]%nat) ^ 2)).
(** The part of it that comes from channel 0 and the features outside [s]. *)
Definition far_kept {V} (val : V -> R) (F : nat) (s : list nat) (cents : tensor R) (x : tensor (option V)) (n k : nat) : R :=
  rsum F (fun f => if existsb (Nat.eqb f) s then 0 else (value val x n 0 f - get cents [k; f]) ^ 2).
(** [c] is the first of the indices below [K] where [d] is smallest. *)
Definition closest (K : nat) (d : nat -> R) (c : nat) : Prop :=
  (c < K)%nat /\ (forall k, (k < K)%nat -> d c <= d k) /\ forall k, (k < c)%nat -> d c < d k.

Lemma closest_argmax K (sim : nat -> num) (d : nat -> R) : (0 < K)%nat -> (forall k, (k < K)%nat -> sim k = Fin (- d k)) -> closest K d (nargmax K sim).
Proof.
  intros HK H. split; [apply nargmax_lt; auto|]. split.
  - intros k Hk. pose proof (nargmax_max K sim (fun k => - d k) HK H k Hk). cbn beta in *. lra.
  - intros k Hk. pose proof (nargmax_first K sim (fun k => - d k) HK H k Hk). cbn beta in *. lra.
Qed.
Lemma nth_map_seq (g : nat -> nat) N n : (n < N)%nat -> nth n (map g (seq 0 N)) 0%nat = g n.
Proof. intros H. rewrite (nth_indep _ _ (g 0%nat)) by (rewrite map_length, seq_length; auto). rewrite map_nth, seq_nth by auto. reflexivity. Qed.
Lemma flat_split C F j : (j < C * F)%nat -> (j / F < C)%nat /\ (j mod F < F)%nat /\ (j / F * F + j mod F = j)%nat.
Proof.
  intros H. assert (F <> 0)%nat by nia. split; [apply Nat.div_lt_upper_bound; lia|]. split; [apply Nat.mod_upper_bound; auto|].
  pose proof (Nat.div_mod j F ltac:(auto)). lia.
Qed.

(** * C59: clusters and initial weights *)
(** Every complete row is assigned to the first of its nearest centroids. *)
Theorem C59_nearest : forall V (val : V -> R) nf cents x N C F K,
  wshape (shape x) N C F -> (0 < N)%nat -> shape cents = [K; C * F]%nat -> (0 < K)%nat ->
  exists cs, predict_cluster val nf cents x None = Ok cs /\ length cs = N /\
  forall n, (n < N)%nat -> (nth n cs 0 < K)%nat /\
    ((forall c f, (c < C)%nat -> (f < F)%nat -> entry x n c f <> None) -> closest K (far val C F cents x n) (nth n cs 0%nat)).
Proof.
  intros V val nf cents x N C F K Hx HN Hc HK. destruct (predict_all val N C F K cents x Hx HN Hc nf) as (y & Sy & Gy & E).
  eexists. split; [exact E|]. split; [rewrite map_length, seq_length; reflexivity|]. intros n Hn. rewrite nth_map_seq by auto.
  split; [apply nargmax_lt; auto|]. intros Hm. apply closest_argmax; auto. intros k Hk.
  rewrite (euc_sim_fin _ _ (fun j => value val x n (j / F) (j mod F))).
  - do 2 f_equal. unfold far. rewrite rsum_mul. apply rsum_ext. intros c Hcc. apply rsum_ext. intros f Hf.
    rewrite (Nat.add_comm (c * F)), Nat.div_add, Nat.mod_add, Nat.div_small, Nat.mod_small by lia. rewrite Nat.add_0_l. reflexivity.
  - intros j Hj. destruct (flat_split C F j Hj) as (J1 & J2 & J3). specialize (Gy n _ _ Hn J1 J2). rewrite J3 in Gy. rewrite Gy.
    specialize (Hm _ _ J1 J2). unfold value. destruct (entry x n (j / F) (j mod F)); [reflexivity|contradiction].
Qed.
Print Assumptions C59_nearest.
(** A row with a missing entry is assigned to cluster 0, whatever its other entries and the centroids are. *)
Theorem C59_missing : forall V (val : V -> R) nf cents x N C F K,
  wshape (shape x) N C F -> (0 < N)%nat -> shape cents = [K; C * F]%nat ->
  exists cs, predict_cluster val nf cents x None = Ok cs /\ length cs = N /\
  forall n, (n < N)%nat -> (exists c f, (c < C)%nat /\ (f < F)%nat /\ entry x n c f = None) -> nth n cs 0%nat = 0%nat.
Proof.
  intros V val nf cents x N C F K Hx HN Hc. destruct (predict_all val N C F K cents x Hx HN Hc nf) as (y & Sy & Gy & E).
  eexists. split; [exact E|]. split; [rewrite map_length, seq_length; reflexivity|]. intros n Hn (c & f & Hcc & Hf & Hm). rewrite nth_map_seq by auto.
  apply nargmax_nan. intros k _. apply (euc_sim_nan _ _ _ (c * F + f)); [nia|]. rewrite Gy, Hm by auto. reflexivity.
Qed.
Print Assumptions C59_missing.
(** With marginalized scopes, the kept features of channel 0 decide.  What is missing: the other channels. *)
Theorem C59_scopes_partial : forall V (val : V -> R) cents x N C F K s,
  wshape (shape x) N C F -> (0 < N)%nat -> (0 < C)%nat -> shape cents = [K; C * F]%nat -> (0 < K)%nat ->
  exists cs, predict_cluster val F cents x (Some s) = Ok cs /\ length cs = N /\
  forall n, (n < N)%nat -> (nth n cs 0 < K)%nat /\
    ((forall f, (f < F)%nat -> ~ In f s -> entry x n 0 f <> None) -> closest K (far_kept val F s cents x n) (nth n cs 0%nat)).
Proof.
  intros V val cents x N C F K s Hx HN HC Hc HK. eexists. split; [apply (predict_kept val N C F K cents x Hx HN Hc s HC)|].
  split; [rewrite map_length, seq_length; reflexivity|]. intros n Hn. rewrite nth_map_seq by auto.
  split; [apply nargmax_lt; auto|]. intros Hm. apply closest_argmax; auto. intros k Hk.
  rewrite (euc_sim_fin _ _ (fun j => value val x n 0 (nth j (keep_idx F s) 0%nat))).
  - do 2 f_equal. unfold far_kept. rewrite (rsum_kept F s (fun f => (value val x n 0 f - get cents [k; f]) ^ 2)). reflexivity.
  - intros j Hj. pose proof (nth_In (keep_idx F s) 0%nat Hj) as I0. apply keep_lt in I0 as [I1 I2]. specialize (Hm _ I1 I2).
    unfold value. destruct (entry x n 0 _); [reflexivity|contradiction].
Qed.
Print Assumptions C59_scopes_partial.

(** ** Weights *)
(** The weights are the relative frequencies of the predicted clusters. *)
Theorem C59_weights : forall preds, preds <> [] ->
  (forall k, nth k (init_weights preds) 0 = INR (count_occ Nat.eq_dec preds k) / INR (length preds)) /\
  weights_ok (init_weights preds) /\ lsum (fun w => w) (init_weights preds) = 1 /\
  (forall k, In k preds -> (k < length (init_weights preds))%nat) /\
  (forall n, (forall k, In k preds -> (k < n)%nat) -> (length (init_weights preds) <= n)%nat).
Proof.
  intros preds Hp.
  assert (L0: 0 < INR (length preds)) by (apply lt_0_INR; destruct preds; [contradiction|cbn; lia]).
  assert (LB: length (init_weights preds) = S (list_max preds)).
  { unfold init_weights, bincount. rewrite !map_length, seq_length. destruct preds; [contradiction|reflexivity]. }
  assert (S1: lsum (fun w => w) (init_weights preds) = 1).
  { unfold init_weights. rewrite lsum_map, (lsum_ext _ (fun c => INR c * / INR (list_sum (bincount preds)))) by (intros; reflexivity).
    rewrite lsum_scal_r, <- INR_list_sum, bincount_sum by auto. apply Rinv_r. lra. }
  split; [|split; [split|split; [|split]]]; auto.
  - intros k. unfold init_weights at 1. rewrite bincount_sum by auto.
    destruct (Nat.lt_ge_cases k (S (list_max preds))) as [Hk|Hk].
    + assert (EB: bincount preds = map (fun k => count_occ Nat.eq_dec preds k) (seq 0 (S (list_max preds)))) by (unfold bincount; destruct preds; [contradiction|reflexivity]).
      rewrite EB, map_map. rewrite (nth_indep _ _ (INR (count_occ Nat.eq_dec preds 0%nat) / INR (length preds))) by (rewrite map_length, seq_length; auto).
      rewrite (map_nth (fun k => INR (count_occ Nat.eq_dec preds k) / INR (length preds)) (seq 0 (S (list_max preds))) 0%nat). rewrite seq_nth by auto. reflexivity.
    + rewrite nth_overflow by (unfold init_weights in LB; rewrite map_length in *; lia).
      replace (count_occ Nat.eq_dec preds k) with 0%nat; [unfold Rdiv; cbn; ring|]. symmetry. apply count_occ_not_In. intros H. apply list_max_lt in H. lia.
  - intros w Hw. unfold init_weights in Hw. apply in_map_iff in Hw as (c & <- & _). rewrite bincount_sum by auto.
    apply Rmult_le_pos; [apply pos_INR|]. left. apply Rinv_0_lt_compat. auto.
  - rewrite S1. lra.
  - intros k Hk. rewrite LB. apply list_max_lt. auto.
  - intros n Hn. rewrite LB. assert (In (list_max preds) preds); [|apply Hn; auto].
    clear - Hp. induction preds as [|a l IH]; [contradiction|]. change (list_max (a :: l)) with (Nat.max a (list_max l)).
    destruct l as [|b l]; [left; cbn; lia|]. destruct (Nat.max_spec a (list_max (b :: l))) as [[_ ->]|[_ ->]]; [right; apply IH; discriminate|left; reflexivity].
Qed.
Print Assumptions C59_weights.
(** There may be fewer weights than components: two components, all rows in cluster 0. *)
Theorem C59_weights_refuted : exists preds, preds <> [] /\ (forall k, In k preds -> (k < 2)%nat) /\ length (init_weights preds) <> 2%nat.
Proof. exists [0; 0; 0]%nat. split; [discriminate|]. split; [intros k [<-|[<-|[<-|[]]]]; lia|]. cbn. lia. Qed.
Print Assumptions C59_weights_refuted.
Example C59_weights_ex : init_weights [1; 0; 1; 1]%nat = [1 / 4; 3 / 4].
Proof. unfold init_weights. cbn. change (INR (1 + (3 + 0))) with (1 + 1 + 1 + 1). f_equal; [lra|]. f_equal. lra. Qed.

(** A dataloader is read batch by batch until more than [limit] rows are seen. *)
Theorem C59_loader : forall A limit (batches : list (list A)), batches <> [] ->
  exists k, collect limit 0 batches = firstn k batches /\ (1 <= k <= length batches)%nat /\
  (length (concat (firstn (k - 1) batches)) <= limit)%nat /\
  (k = length batches \/ (limit < length (concat (firstn k batches)))%nat).
Proof.
  intros A limit batches Hb.
  assert (G: forall (bs : list (list A)) seen, bs <> [] -> (seen <= limit)%nat -> exists k, collect limit seen bs = firstn k bs /\ (1 <= k <= length bs)%nat /\
    (seen + length (concat (firstn (k - 1) bs)) <= limit)%nat /\ (k = length bs \/ (limit < seen + length (concat (firstn k bs)))%nat)).
  { clear. induction bs as [|b bs IH]; intros seen Hb Hs; [contradiction|]. cbn [collect]. destruct (Nat.ltb_spec limit (seen + length b)) as [L|L].
    - exists 1%nat. change (1 - 1)%nat with 0%nat. cbn [firstn length concat]. rewrite app_nil_r. repeat split; try lia.
    - destruct bs as [|b' bs].
      + exists 1%nat. change (1 - 1)%nat with 0%nat. cbn [firstn length concat collect]. repeat split; try lia.
      + destruct (IH (seen + length b)%nat ltac:(discriminate) L) as (k & K1 & K2 & K3 & K4). exists (S k). rewrite K1.
        replace (S k - 1)%nat with (S (k - 1))%nat by lia. cbn [firstn length concat] in *. rewrite !app_length.
        split; [reflexivity|]. split; [lia|]. split; [lia|]. destruct K4 as [K4|K4]; [left; lia|right; lia]. }
  destruct (G batches 0%nat Hb (Nat.le_0_l _)) as (k & K1 & K2 & K3 & K4). exists k. rewrite Nat.add_0_l in *. auto.
Qed.
Print Assumptions C59_loader.
(** It can be more than [limit] rows. *)
Theorem C59_loader_refuted : exists limit (batches : list (list nat)), (limit < length (concat (collect limit 0 batches)))%nat.
Proof. exists 2%nat, [[0; 0]; [0; 0]; [0; 0]]%nat. apply Nat.ltb_lt. reflexivity. Qed.
Print Assumptions C59_loader_refuted.

(** initialize takes data or a dataloader, not both and not neither; the weights of a successful call sum to one. *)
Theorem C59_initialize : forall limit tc fit data loader, (forall rows, fst (fit rows) <> []) ->
  match initialize limit tc fit data loader with
  | Ok (ws, cents) => weights_ok ws /\ lsum (fun w => w) ws = 1 /\
      exists rows, ((data = Some rows /\ loader = None) \/ (data = None /\ exists bs k, loader = Some bs /\ rows = concat (firstn k bs))) /\
        shape cents = shape (snd (fit rows)) /\ forall idx, get cents idx = get (snd (fit rows)) idx * match tc with Some t => INR t | None => 1 end
  | Err e => (e = AssertionError /\ ((data = None /\ loader = None) \/ (data <> None /\ loader <> None))) \/ (e = RuntimeErr /\ data = None /\ loader = Some [])
  end.
Proof.
  intros limit tc fit data loader Hf. unfold initialize.
  assert (G: forall rows, let '(preds, cents) := fit rows in weights_ok (init_weights preds) /\ lsum (fun w => w) (init_weights preds) = 1 /\
    shape (init_centroids tc cents) = shape (snd (fit rows)) /\ forall idx, get (init_centroids tc cents) idx = get (snd (fit rows)) idx * match tc with Some t => INR t | None => 1 end).
  { intros rows. specialize (Hf rows). destruct (fit rows) as [preds cents]. destruct (C59_weights preds Hf) as (_ & H1 & H2 & _). split; [auto|]. split; [auto|].
    destruct tc; (split; [reflexivity|]); intros idx; cbn; ring. }
  destruct data as [d|], loader as [[|b bs]|]; cbn [bind].
  - left. split; [reflexivity|]. right. split; discriminate.
  - left. split; [reflexivity|]. right. split; discriminate.
  - specialize (G d). destruct (fit d) as [preds cents] eqn:E. destruct G as (G1 & G2 & G3 & G4). split; [auto|]. split; [auto|]. exists d. rewrite E. auto.
  - right. auto.
  - destruct (C59_loader _ limit (b :: bs) ltac:(discriminate)) as (k & Ek & _). rewrite Ek. specialize (G (concat (firstn k (b :: bs)))).
    destruct (fit (concat (firstn k (b :: bs)))) as [preds cents] eqn:E. destruct G as (G1 & G2 & G3 & G4). split; [auto|]. split; [auto|].
    exists (concat (firstn k (b :: bs))). rewrite E. split; [right; split; [auto|]; exists (b :: bs), k; auto|auto].
  - left. split; [reflexivity|]. left. auto.
Qed.
Print Assumptions C59_initialize.

(** ** Binomial leaves *)
(** Scaled centroids and scaled data lead to the clusters of the original ones. *)
Theorem C59_scaled : forall V (val : V -> R) nf t cents x N C F K,
  wshape (shape x) N C F -> (0 < N)%nat -> shape cents = [K; C * F]%nat -> (0 < t)%nat ->
  predict_cluster (fun v => val v * INR t) nf (init_centroids (Some t) cents) x None = predict_cluster val nf cents x None.
Proof.
  intros V val nf t cents x N C F K Hx HN Hc Ht.
  destruct (predict_all val N C F K cents x Hx HN Hc nf) as (y & Sy & Gy & ->).
  assert (Hc': shape (init_centroids (Some t) cents) = [K; C * F]%nat) by exact Hc.
  destruct (predict_all (fun v => val v * INR t) N C F K _ x Hx HN Hc' nf) as (y' & Sy' & Gy' & ->). f_equal.
  apply map_ext_in. intros n Hn. apply in_seq in Hn. assert (T0: 0 < INR t) by (apply lt_0_INR; auto).
  assert (EY: forall j, (j < C * F)%nat -> get y [n; j] = get y' [n; j]).
  { intros j Hj. destruct (flat_split C F j Hj) as (J1 & J2 & J3). rewrite <- J3. rewrite Gy, Gy' by (auto; lia). reflexivity. }
  destruct (Classical_Prop.classic (exists j, (j < C * F)%nat /\ get y [n; j] = None)) as [(j & Hj & Ej)|Hall].
  - rewrite !nargmax_nan; auto; intros k Hk; apply (euc_sim_nan _ _ _ j); auto; [rewrite Ej|rewrite <- EY, Ej by auto]; reflexivity.
  - set (u := fun j => match get y [n; j] with Some v => val v | None => 0 end).
    assert (EU: forall j, (j < C * F)%nat -> cell val (get y [n; j]) = Fin (u j) /\ cell (fun v => val v * INR t) (get y' [n; j]) = Fin (u j * INR t)).
    { intros j Hj. rewrite <- EY by auto. unfold u. destruct (get y [n; j]) eqn:Ej; [split; reflexivity|]. exfalso. apply Hall. exists j. auto. }
    apply (nargmax_incr K _ _ (fun k => - rsum (C * F) (fun j => (u j * INR t - get (init_centroids (Some t) cents) [k; j]) ^ 2)) (fun k => - rsum (C * F) (fun j => (u j - get cents [k; j]) ^ 2))).
    + intros k Hk. apply euc_sim_fin. intros j Hj. apply EU. auto.
    + intros k Hk. apply euc_sim_fin. intros j Hj. apply EU. auto.
    + assert (Z: forall k, rsum (C * F) (fun j => (u j * INR t - get (init_centroids (Some t) cents) [k; j]) ^ 2) = INR t ^ 2 * rsum (C * F) (fun j => (u j - get cents [k; j]) ^ 2)).
      { intros k. rewrite <- rsum_scal_l. apply rsum_ext. intros j _. cbn [init_centroids tmap get]. ring. }
      intros i k Hi Hk. rewrite !Z. assert (0 < INR t ^ 2) by (apply pow_lt; auto). split; intros; nra.
Qed.
Print Assumptions C59_scaled.
(** Initialized with counts, the centroids are scaled although the data are not: row 3 is nearest to centroid 3 = cluster 1
    and assigned to cluster 0. *)
Theorem C59_counts_refuted : exists t cents (x : tensor (option nat)), shape cents = [2; 1]%nat /\ wshape (shape x) 1 1 1 /\ (0 < t)%nat /\
  predict_cluster INR 1 cents x None = Ok [1%nat] /\ predict_cluster INR 1 (init_centroids (Some t) cents) x None = Ok [0%nat].
Proof.
  set (cents := mkT [2; 1]%nat (fun idx => match idx with [0%nat; _] => 1 | _ => 3 end)).
  set (x := mkT [1; 1; 1]%nat (fun _ => Some 3%nat)). exists 4%nat, cents, x.
  assert (Hx: wshape (shape x) 1 1 1) by (right; left; reflexivity). split; [reflexivity|]. split; [exact Hx|]. split; [lia|].
  assert (V3: forall c f, value INR x 0 c f = 3) by (intros; unfold value; cbn; lra).
  split.
  - destruct (C59_nearest nat INR 1 cents x 1 1 1 2 Hx ltac:(lia) eq_refl ltac:(lia)) as (cs & E & L & P). rewrite E. f_equal.
    destruct cs as [|c [|]]; try discriminate. destruct (P 0%nat ltac:(lia)) as [_ Q]. destruct Q as (Q1 & Q2 & _); [intros; discriminate|]. cbn [nth] in *.
    destruct c as [|[|]]; [|reflexivity|lia]. exfalso. specialize (Q2 1%nat ltac:(lia)). unfold far in Q2. rewrite !rsum_1, !V3 in Q2. cbn in Q2. lra.
  - destruct (C59_nearest nat INR 1 (init_centroids (Some 4%nat) cents) x 1 1 1 2 Hx ltac:(lia) eq_refl ltac:(lia)) as (cs & E & L & P). rewrite E. f_equal.
    destruct cs as [|c [|]]; try discriminate. destruct (P 0%nat ltac:(lia)) as [_ Q]. destruct Q as (Q1 & Q2 & _); [intros; discriminate|]. cbn [nth] in *.
    destruct c as [|[|]]; [reflexivity| |lia]. exfalso. specialize (Q2 0%nat ltac:(lia)). unfold far in Q2. rewrite !rsum_1, !V3 in Q2. cbn in Q2. lra.
Qed.
Print Assumptions C59_counts_refuted.
(** With marginalized scopes only channel 0 is compared: nothing is marginalized, the row equals centroid 1, and it is
    assigned to cluster 0. *)
Theorem C59_scopes_refuted : exists cents (x : tensor (option nat)), shape cents = [2; 2 * 1]%nat /\ wshape (shape x) 1 2 1 /\
  predict_cluster INR 1 cents x None = Ok [1%nat] /\ predict_cluster INR 1 cents x (Some []) = Ok [0%nat].
Proof.
  set (cents := mkT [2; 2]%nat (fun idx => match idx with [1%nat; 1%nat] => 1 | _ => 0 end)).
  set (x := mkT [1; 2; 1]%nat (fun idx => match idx with [_; c; _] => Some c | _ => None end)). exists cents, x.
  assert (Hx: wshape (shape x) 1 2 1) by (right; left; reflexivity). split; [reflexivity|]. split; [exact Hx|]. split.
  - destruct (C59_nearest nat INR 1 cents x 1 2 1 2 Hx ltac:(lia) eq_refl ltac:(lia)) as (cs & E & L & P). rewrite E. f_equal.
    destruct cs as [|c [|]]; try discriminate. destruct (P 0%nat ltac:(lia)) as [_ Q]. destruct Q as (Q1 & Q2 & _); [intros; discriminate|]. cbn [nth] in *.
    destruct c as [|[|]]; [|reflexivity|lia]. exfalso. specialize (Q2 1%nat ltac:(lia)). unfold far in Q2. rewrite !rsum_S, !rsum_0 in Q2. change (1 * 1 + 0)%nat with 1%nat in Q2. change (0 * 1 + 0)%nat with 0%nat in Q2. cbn in Q2. lra.
  - destruct (C59_scopes_partial nat INR cents x 1 2 1 2 [] Hx ltac:(lia) ltac:(lia) eq_refl ltac:(lia)) as (cs & E & L & P). rewrite E. f_equal.
    destruct cs as [|c [|]]; try discriminate. destruct (P 0%nat ltac:(lia)) as [_ Q]. destruct Q as (Q1 & Q2 & Q3); [intros; discriminate|]. cbn [nth] in *.
    destruct c as [|[|]]; [reflexivity| |lia]. exfalso. specialize (Q3 0%nat ltac:(lia)). unfold far_kept in Q3. rewrite !rsum_1 in Q3. cbn in Q3. lra.
Qed.
Print Assumptions C59_scopes_refuted.

(** ** Evidence with missing entries *)
(** Every row of the evidence that has a missing entry is completed by component 0: the law of the samples does not
    depend on the weights, on the centroids or on the other components. *)
Theorem C59_evidence : forall nc g os (Es : list (einet nat)) B ws val nf cents e N num per cl mpel xs,
  mixture_of nc g os Es -> consistent g -> nval (g_K g) = 1%nat ->
  (forall E, In E Es -> evidence E N e None /\ discrete_leaf B (leafE E) /\ lf_ctx (leafE E) = true) -> weights_ok ws ->
  (0 < N)%nat -> shape cents = [length Es; nval (g_C g) * nval (g_F g)]%nat -> num = None \/ per = None ->
  (forall n c f, (n < N)%nat -> (c < nval (g_C g))%nat -> (f < nval (g_F g))%nat -> (xs n c f < B)%nat) ->
  (forall n c f v, (n < N)%nat -> (c < nval (g_C g))%nat -> (f < nval (g_F g))%nat -> entry e n c f = Some v -> xs n c f = v) ->
  (forall n, (n < N)%nat -> exists c f, (c < nval (g_C g))%nat /\ (f < nval (g_F g))%nat /\ entry e n c f = None) ->
  PrMix B Es (mixture_sample val nf cents Es ws (mkMArgs num per cl (Some e) false mpel 1 None)) (rows_are N (nval (g_C g)) (nval (g_F g)) xs) =
  rprod N (fun n => lik_at Es 0 (one_row (nval (g_C g)) (nval (g_F g)) (xs n)) None 0 0 / lik_at Es 0 e None n 0).
Proof.
  intros nc g os Es B ws val nf cents e N num per cl mpel xs HM Hco HK HE HW HN Hc Hnp Hx Hr Hm.
  destruct (mixture_components _ _ _ _ HM) as (_ & Hpos & HA).
  assert (Hw: wshape (shape e) N (nval (g_C g)) (nval (g_F g))).
  { destruct Es as [|E l]; [cbn in Hpos; lia|]. destruct (HA E (or_introl eq_refl)) as (o & A). destruct A as [A1 A2 A3].
    destruct (build_inv _ _ _ A1 A2 A3) as (_ & HF & HC & _). destruct (HE E (or_introl eq_refl)) as (([Hs _] & _) & _). rewrite HC, HF in Hs. exact Hs. }
  destruct (C59_missing nat val nf cents e N _ _ _ Hw HN Hc) as (cs & Ecs & Lcs & Zcs).
  unfold mixture_sample. cbn [m_ev m_ms]. rewrite Ecs.
  assert (Z0: forall n, (n < N)%nat -> nth n cs 0%nat = 0%nat) by (intros n Hn; apply Zcs; auto).
  rewrite (C54_evidence_partial nc g os Es B ws (fun _ _ => cs) e None N num per cl mpel xs HM Hco HK); auto.
  - apply rprod_ext. intros n Hn. cbv zeta. rewrite Z0 by auto. reflexivity.
  - split; auto. intros c Hin. apply (In_nth _ _ 0%nat) in Hin as (n & Hn & <-). rewrite Z0 by lia. auto.
Qed.
Print Assumptions C59_evidence.

(** ** The likelihood of the example *)
Definition flip (p : R) (o : option nat) : R := match o with Some 0%nat => p | Some _ => 1 - p | None => 1 end.
Lemma coin_lik o (E : einet nat) p N x n : accepted ex_bu_g o E -> leafE E = coin (fun _ => p) 5 1 2 2 -> 0 < p < 1 -> batch E N x -> (n < N)%nat ->
  lik E x None n 0 = rprod 5 (fun f => flip p (entry x n 0 f)).
Proof.
  intros A HL Hp Hb Hn. pose proof (accepted_ok _ _ E A) as HE. destruct (ex_dims o E A) as (EF & EC & EK).
  rewrite (lik_eval E HE N) by (auto using batch_input; lia). pose proof (fnet_wf E HE) as SW.
  assert (K0: (0 < nCls (fnet E))%nat) by (change (0 < e_K E)%nat; lia).
  rewrite (neteval_ext (fnet E) _ (fun c f l r => flip p (entry x n c f) * 1) 0 SW K0).
  - rewrite (neteval_scale (fnet E) (fun _ _ _ _ => 1) (fun c f => flip p (entry x n c f)) 0 SW K0); [|intros; lra|intros c f; unfold flip; destruct (entry x n c f) as [[|]|]; lra].
    rewrite (neteval_one (fnet E) (fun _ _ _ _ => 1) 0 SW K0) by (intros ? ? ? ? _ _ _ _; reflexivity). cbn [fnet net_with nC nF]. rewrite EC, EF.
    rewrite (rprod_S 0), rprod_0. ring.
  - intros c f l r Hc Hf Hl Hr. unfold lval, row, in_ms. destruct (entry x n c f) as [v|]; [|cbn [flip]; ring].
    unfold pdf. rewrite HL. cbn [coin lf_logp toR flip]. destruct v as [|v]; cbn [Nat.eqb]; rewrite exp_ln by lra; ring.
Qed.
Lemma ex_clusters : exists E1 E2, mixture_of (VInt 2) ex_bu_g [ex_o third; ex_o quarter] [E1; E2] /\
  (forall E, In E [E1; E2] -> discrete_leaf 2 (leafE E) /\ lf_ctx (leafE E) = true) /\
  (forall N x n, wshape (shape x) N 1 5 -> (forall n c f v, (n < N)%nat -> (c < 1)%nat -> (f < 5)%nat -> entry x n c f = Some v -> (v < 2)%nat) -> (n < N)%nat ->
    (forall E, In E [E1; E2] -> batch E N x) /\
    lik E1 x None n 0 = rprod 5 (fun f => flip (1 / 3) (entry x n 0 f)) /\ lik E2 x None n 0 = rprod 5 (fun f => flip (1 / 4) (entry x n 0 f))).
Proof.
  destruct ex_mixture as (E1 & E2 & HM & L1 & L2). destruct (mixture_components _ _ _ _ HM) as (_ & _ & HA). exists E1, E2. split; [exact HM|]. split.
  - intros E [<-|[<-|[]]]; [rewrite L1|rewrite L2]; (split; [apply coin_discrete; [apply third_ok || apply quarter_ok]|reflexivity]).
  - intros N x n Hs Hv Hn. destruct (HA E1 (or_introl eq_refl)) as (o1 & A1). destruct (HA E2 (or_intror (or_introl eq_refl))) as (o2 & A2).
    destruct (ex_dims _ _ A1) as (F1 & C1 & _). destruct (ex_dims _ _ A2) as (F2 & C2 & _).
    assert (HB: forall E, In E [E1; E2] -> batch E N x).
    { intros E [<-|[<-|[]]]; (split; [rewrite ?F1, ?C1, ?F2, ?C2; exact Hs|]); rewrite ?F1, ?C1, ?F2, ?C2, ?L1, ?L2; intros m c f v Hm Hc Hf Hu; cbn [coin lf_supp];
      apply Nat.ltb_lt; apply (Hv m c f v Hm Hc Hf Hu). }
    split; [exact HB|]. split.
    + apply (coin_lik _ E1 (1 / 3) N x n A1 L1 ltac:(lra)); auto. apply HB. left. reflexivity.
    + apply (coin_lik _ E2 (1 / 4) N x n A2 L2 ltac:(lra)); auto. apply HB. right. left. reflexivity.
Qed.

(** Two centroids that differ in feature 0 only. *)
Definition halves : tensor R := mkT [2; 5]%nat (fun idx => match idx with [k; 0%nat] => INR k | _ => 1 / 2 end).
(** Feature 0 is observed to be 0; the weights are equal. *)
Definition only_first (n f : nat) : option nat := match f with 0%nat => Some 0%nat | _ => None end.
(** The samples do not follow the distribution that the weights and the components define, given the evidence. *)
Theorem C59_evidence_refuted : exists nc g os (Es : list (einet nat)) ws cents e xs,
  mixture_of nc g os Es /\ consistent g /\ (forall E, In E Es -> evidence E 1 e None /\ discrete_leaf 2 (leafE E) /\ lf_ctx (leafE E) = true) /\
  weights_ok ws /\ length ws = length Es /\ shape cents = [length Es; nval (g_C g) * nval (g_F g)]%nat /\
  PrMix 2 Es (mixture_sample INR (nval (g_F g)) cents Es ws (mkMArgs None None CNone (Some e) false false 1 None)) (rows_are 1 (nval (g_C g)) (nval (g_F g)) (fun _ => xs)) <>
  rsum (length Es) (fun k => share ws k * lik_at Es k (one_row (nval (g_C g)) (nval (g_F g)) xs) None 0 0) /
  rsum (length Es) (fun k => share ws k * lik_at Es k e None 0 0).
Proof.
  destruct ex_clusters as (E1 & E2 & HM & HE & HL). set (e := table 1 only_first). set (xs := fun _ _ : nat => 0%nat).
  assert (HW: weights_ok [1 / 2; 1 / 2]) by (split; [intros w [<-|[<-|[]]]; lra|cbn [lsum]; lra]).
  destruct (HL 1%nat e 0%nat) as (Be & Le1 & Le2); [right; left; reflexivity| |lia|].
  { intros n c f v _ _ _ H. change (only_first n f = Some v) in H. destruct f; [|discriminate]. assert (v = 0%nat) by (cbn in H; congruence). lia. }
  destruct (HL 1%nat (one_row 1 5 xs) 0%nat) as (Bx & Lx1 & Lx2); [right; left; reflexivity| |lia|].
  { intros n c f v _ _ _ H. change (Some 0%nat = Some v) in H. assert (v = 0%nat) by congruence. lia. }
  exists (VInt 2), ex_bu_g, [ex_o third; ex_o quarter], [E1; E2], [1 / 2; 1 / 2], halves, e, xs.
  assert (HEv: forall E, In E [E1; E2] -> evidence E 1 e None /\ discrete_leaf 2 (leafE E) /\ lf_ctx (leafE E) = true).
  { intros E H. split; [|apply HE; auto]. split; [apply Be; auto|exact I]. }
  split; [exact HM|]. split; [exact I|]. split; [exact HEv|]. split; [exact HW|]. split; [reflexivity|]. split; [reflexivity|].
  rewrite (C59_evidence (VInt 2) ex_bu_g _ [E1; E2] 2 [1 / 2; 1 / 2] INR _ halves e 1 None None CNone false (fun _ => xs) HM I eq_refl HEv HW); auto.
  - change (nval (g_C ex_bu_g)) with 1%nat. change (nval (g_F ex_bu_g)) with 5%nat. cbn [length]. rewrite !rprod_S, rprod_0, !rsum_S, !rsum_0.
    unfold lik_at. cbn [nth_error]. rewrite Le1, Le2, Lx1, Lx2. unfold share. cbn [nth lsum].
    rewrite !rprod_S, !rprod_0. change (entry e 0 0 0) with (Some 0%nat). change (entry e 0 0 1) with (@None nat). change (entry e 0 0 2) with (@None nat).
    change (entry e 0 0 3) with (@None nat). change (entry e 0 0 4) with (@None nat).
    change (entry (one_row 1 5 xs) 0 0 0) with (Some 0%nat). change (entry (one_row 1 5 xs) 0 0 1) with (Some 0%nat). change (entry (one_row 1 5 xs) 0 0 2) with (Some 0%nat).
    change (entry (one_row 1 5 xs) 0 0 3) with (Some 0%nat). change (entry (one_row 1 5 xs) 0 0 4) with (Some 0%nat). cbn [flip].
    intros Z. field_simplify in Z. lra.
  - intros n c f v _ _ _ H. change (only_first n f = Some v) in H. destruct f; [|discriminate]. cbn in H. unfold xs. congruence.
  - intros n Hn. exists 0%nat, 1%nat. split; [cbn; lia|]. split; [cbn; lia|]. reflexivity.
Qed.
Print Assumptions C59_evidence_refuted.

(** * C60: the likelihood of a mixture *)
(** exp of the entry of the result. *)
Definition mixlik {V} (val : V -> R) (nf : nat) (cents : tensor R) (Es : list (einet V)) (x : tensor (option V)) (n k : nat) : R :=
  match mixture_forward val nf cents Es x None with Ok y => pval (get y [n; k]) | Err _ => 0 end.
(** A row has the likelihood that the component of its nearest centroid assigns to it. *)
Theorem C60_row : forall V (val : V -> R) nc g os (Es : list (einet V)) cents x N n k,
  mixture_of nc g os Es -> (forall E, In E Es -> batch E N x) -> shape cents = [length Es; nval (g_C g) * nval (g_F g)]%nat ->
  (n < N)%nat -> (k < nval (g_K g))%nat -> (forall c f, (c < nval (g_C g))%nat -> (f < nval (g_F g))%nat -> entry x n c f <> None) ->
  exists c E, closest (length Es) (far val (nval (g_C g)) (nval (g_F g)) cents x n) c /\ nth_error Es c = Some E /\
    mixlik val (nval (g_F g)) cents Es x n k = lik E x None n k.
Proof.
  intros V val nc g os Es cents x N n k HM Hb Hc Hn Hk Hm. destruct (mixture_components _ _ _ _ HM) as (_ & Hpos & HA).
  assert (Hw: wshape (shape x) N (nval (g_C g)) (nval (g_F g))).
  { destruct Es as [|E l]; [cbn in Hpos; lia|]. destruct (HA E (or_introl eq_refl)) as (o & A). destruct A as [A1 A2 A3].
    destruct (build_inv _ _ _ A1 A2 A3) as (_ & HF & HC & _). destruct (Hb E (or_introl eq_refl)) as [Hs _]. rewrite HC, HF in Hs. exact Hs. }
  destruct (C59_nearest V val (nval (g_F g)) cents x N _ _ _ Hw ltac:(lia) Hc Hpos) as (cs & Ecs & Lcs & P).
  destruct (C31_rows_partial V nc g os Es (fun _ _ => cs) x None N HM Hb ltac:(lia)) as (y & Ey & _ & Gy).
  { split; auto. intros c Hin. apply (In_nth _ _ 0%nat) in Hin as (m & Hm' & <-). exact (proj1 (P m ltac:(lia))). }
  destruct (P n Hn) as [_ Q]. specialize (Q Hm). destruct (Gy n k Hn Hk) as (E & yE & G1 & G2 & G3). exists (nth n cs 0%nat), E. split; [exact Q|]. split; [exact G1|].
  unfold mixlik, mixture_forward. rewrite Ecs. cbn [bind]. rewrite Ey. unfold lik. rewrite G2, G3. reflexivity.
Qed.
Print Assumptions C60_row.

Section Total.
Variables (val : nat -> R) (nc : pyval) (g : config) (os : list (oracle nat)) (Es : list (einet nat)) (B : nat) (cents : tensor R) (k : nat).
Hypothesis HM : mixture_of nc g os Es.
Hypothesis HB : forall E, In E Es -> discrete_leaf B (leafE E).
Hypothesis Hc : shape cents = [length Es; nval (g_C g) * nval (g_F g)]%nat.
Hypothesis Hk : (k < nval (g_K g))%nat.
Let C := nval (g_C g).
Let F := nval (g_F g).
Lemma dims E : In E Es -> e_C E = C /\ e_F E = F /\ e_K E = nval (g_K g) /\ exists o, accepted g o E.
Proof.
  intros H. destruct (mixture_components _ _ _ _ HM) as (_ & _ & HA). destruct (HA E H) as (o & A). pose proof A as A'. destruct A as [A1 A2 A3].
  destruct (build_inv _ _ _ A1 A2 A3) as (_ & HF & HC & _ & HKk). split; [auto|]. split; [auto|]. split; [auto|]. exists o. exact A'.
Qed.
Lemma point_batch_all w E : In w (vectors B (C * F)) -> In E Es -> batch E 1 (point C F w).
Proof. intros Hw H. destruct (dims E H) as (HC & HF & _). rewrite <- HC, <- HF in *. apply (point_batch E B); auto. Qed.
Lemma total_rows w : In w (vectors B (C * F)) -> exists c E, closest (length Es) (far val C F cents (point C F w) 0) c /\ nth_error Es c = Some E /\
  mixlik val F cents Es (point C F w) 0 k = lik E (point C F w) None 0 k.
Proof.
  intros Hw. apply (C60_row nat val nc g os Es cents (point C F w) 1 0 k HM); auto.
  - intros E H. apply point_batch_all; auto.
  - intros; discriminate.
Qed.
Lemma total_le : lsum (fun w => mixlik val F cents Es (point C F w) 0 k) (vectors B (C * F)) <= INR (length Es).
Proof.
  assert (NN: forall E w, 0 <= lik E (point C F w) None 0 k) by (intros E w; unfold lik; destruct (forward E (point C F w) None); [apply pval_nonneg|lra]).
  apply Rle_trans with (lsum (fun w => lsum (fun E => lik E (point C F w) None 0 k) Es) (vectors B (C * F))).
  - apply lsum_le. intros w Hw. destruct (total_rows w Hw) as (c & E & _ & HE & ->). apply (lsum_term_le (fun E => lik E (point C F w) None 0 k)); [eapply nth_error_In; eauto|auto].
  - rewrite lsum_swap. rewrite (lsum_ext _ (fun _ => 1)); [rewrite lsum_const; lra|]. intros E HE. destruct (dims E HE) as (HC & HF & HKk & o & A).
    pose proof (lik_normalized E (accepted_ok _ _ E A) B (HB E HE) k ltac:(lia)) as T. rewrite HC, HF in T. exact T.
Qed.
Lemma total_pos : 0 < lsum (fun w => mixlik val F cents Es (point C F w) 0 k) (vectors B (C * F)).
Proof.
  destruct (mixture_components _ _ _ _ HM) as (_ & Hpos & _). destruct Es as [|E0 l] eqn:EE; [cbn in Hpos; lia|]. rewrite <- EE in *.
  assert (HE0: In E0 Es) by (rewrite EE; left; reflexivity).
  apply lsum_pos.
  - intros Z. destruct (dims E0 HE0) as (HC & HF & HKk & o & A). pose proof (lik_normalized E0 (accepted_ok _ _ E0 A) B (HB E0 HE0) k ltac:(lia)) as T.
    rewrite HC, HF, Z in T. cbn [lsum] in T. lra.
  - intros w Hw. destruct (total_rows w Hw) as (c & E & _ & HE & ->). apply nth_error_In in HE. destruct (dims E HE) as (HC & HF & HKk & o & A).
    destruct (forward_total E (accepted_ok _ _ E A) 1 _ None (batch_input _ _ _ (point_batch_all w E Hw HE))) as (yw & Ew & _ & Fw).
    unfold lik. rewrite Ew. specialize (Fw 0%nat k ltac:(lia) ltac:(lia)). destruct (get yw [0%nat; k]); try discriminate. cbn [pval]. apply exp_pos.
Qed.
End Total.
(** The likelihoods of all data points sum to a positive number, at most the number of components. *)
Theorem C60_total_partial : forall (val : nat -> R) nc g os (Es : list (einet nat)) B cents k,
  mixture_of nc g os Es -> (forall E, In E Es -> discrete_leaf B (leafE E)) ->
  shape cents = [length Es; nval (g_C g) * nval (g_F g)]%nat -> (k < nval (g_K g))%nat ->
  0 < lsum (fun w => mixlik val (nval (g_F g)) cents Es (point (nval (g_C g)) (nval (g_F g)) w) 0 k) (vectors B (nval (g_C g) * nval (g_F g))) <= INR (length Es).
Proof. intros val nc g os Es B cents k HM HB Hc Hk. split; [apply (total_pos val nc g os Es B cents k)|apply (total_le val nc g os Es B cents k)]; auto. Qed.
Print Assumptions C60_total_partial.
(** One component: the likelihoods sum to one. *)
Theorem C60_one_component : forall (val : nat -> R) nc g os (E : einet nat) B cents k,
  mixture_of nc g os [E] -> discrete_leaf B (leafE E) -> shape cents = [1; nval (g_C g) * nval (g_F g)]%nat -> (k < nval (g_K g))%nat ->
  lsum (fun w => mixlik val (nval (g_F g)) cents [E] (point (nval (g_C g)) (nval (g_F g)) w) 0 k) (vectors B (nval (g_C g) * nval (g_F g))) = 1.
Proof.
  intros val nc g os E B cents k HM HB Hc Hk.
  assert (HB': forall E', In E' [E] -> discrete_leaf B (leafE E')) by (intros E' [<-|[]]; auto).
  destruct (dims nc g os [E] HM E (or_introl eq_refl)) as (HC & HF & HKk & o & A).
  pose proof (lik_normalized E (accepted_ok _ _ E A) B HB k ltac:(lia)) as T. rewrite HC, HF in T. rewrite <- T. apply lsum_ext. intros w Hw.
  destruct (total_rows val nc g os [E] B cents k HM HB' Hc Hk w Hw) as (c & E' & _ & HE & ->). apply nth_error_In in HE. destruct HE as [<-|[]]. reflexivity.
Qed.
Print Assumptions C60_one_component.

(** ** Refutations *)
Lemma halves_far w k : (k < 2)%nat -> far INR 1 5 halves (point 1 5 w) 0 k =
  (INR (nth 0 w 0%nat) - INR k) ^ 2 + rsum 4 (fun f => (INR (nth (S f) w 0%nat) - 1 / 2) ^ 2).
Proof.
  intros Hk. unfold far. rewrite rsum_1, !rsum_S, !rsum_0. unfold value.
  change (0 * 5 + 0)%nat with 0%nat. change (0 * 5 + 1)%nat with 1%nat. change (0 * 5 + 2)%nat with 2%nat. change (0 * 5 + 3)%nat with 3%nat. change (0 * 5 + 4)%nat with 4%nat.
  change (entry (point 1 5 w) 0 0 0) with (Some (nth 0 w 0%nat)). change (entry (point 1 5 w) 0 0 1) with (Some (nth 1 w 0%nat)).
  change (entry (point 1 5 w) 0 0 2) with (Some (nth 2 w 0%nat)). change (entry (point 1 5 w) 0 0 3) with (Some (nth 3 w 0%nat)). change (entry (point 1 5 w) 0 0 4) with (Some (nth 4 w 0%nat)).
  cbn [halves get]. ring.
Qed.
Lemma halves_closest w c : In w (vectors 2 5) -> closest 2 (far INR 1 5 halves (point 1 5 w) 0) c -> c = nth 0 w 0%nat.
Proof.
  intros Hw (H1 & H2 & _). apply (vectors_complete 2 5 w) in Hw as [Hw1 Hw2].
  assert (W0: (nth 0 w 0 < 2)%nat) by (apply Hw2, nth_In; lia).
  specialize (H2 (nth 0 w 0%nat) W0). rewrite !halves_far in H2 by auto.
  destruct c as [|[|]]; [| |lia]; (destruct (nth 0 w 0%nat) as [|[|]]; [| |lia]); auto; cbn [INR] in H2; exfalso; lra.
Qed.
Definition bias (k : nat) : R := match k with 0%nat => 1 / 3 | _ => 1 / 4 end.
Lemma ex_mixlik : exists E1 E2, mixture_of (VInt 2) ex_bu_g [ex_o third; ex_o quarter] [E1; E2] /\
  (forall E, In E [E1; E2] -> discrete_leaf 2 (leafE E) /\ lf_ctx (leafE E) = true) /\
  (forall w, In w (vectors 2 5) -> mixlik INR 5 halves [E1; E2] (point 1 5 w) 0 0 = rprod 5 (fun f => flip (bias (nth 0 w 0%nat)) (Some (nth f w 0%nat)))) /\
  (forall x k, (forall f, (x 0 f < 2)%nat) -> (k < 2)%nat -> lik_at [E1; E2] k (one_row 1 5 x) None 0 0 = rprod 5 (fun f => flip (bias k) (Some (x 0%nat f)))).
Proof.
  destruct ex_clusters as (E1 & E2 & HM & HE & HL). exists E1, E2. split; [exact HM|]. split; [exact HE|]. split.
  - intros w Hw. destruct (total_rows INR (VInt 2) ex_bu_g _ [E1; E2] 2 halves 0 HM (fun E H => proj1 (HE E H)) eq_refl ltac:(cbn; lia) w Hw) as (c & E & Hc & Hn & EQ).
    change (nval (g_C ex_bu_g)) with 1%nat in *. change (nval (g_F ex_bu_g)) with 5%nat in *. rewrite EQ. pose proof (halves_closest w c Hw Hc) as ->. clear EQ Hc.
    pose proof (proj1 (vectors_complete 2 5 w) Hw) as [Hw1 Hw2].
    destruct (HL 1%nat (point 1 5 w) 0%nat) as (_ & L1 & L2); [right; left; reflexivity| |lia|].
    { intros n c f v _ Hc Hf Hv. assert (v = nth (c * 5 + f) w 0%nat) by (cbn in Hv; congruence). subst v. apply Hw2, nth_In. lia. }
    assert (W0: (nth 0 w 0 < 2)%nat) by (apply Hw2, nth_In; lia).
    destruct (nth 0 w 0%nat) as [|[|]]; [| |lia]; cbn [nth_error] in Hn; assert (X := f_equal (fun o => match o with Some e => e | None => E end) Hn); cbn in X; subst E; [rewrite L1|rewrite L2]; cbn [bias]; apply rprod_ext; intros f Hf; f_equal.
  - intros x k Hx Hk. destruct (HL 1%nat (one_row 1 5 x) 0%nat) as (_ & L1 & L2); [right; left; reflexivity| |lia|].
    { intros n c f v _ Hc Hf Hv. assert (c = 0%nat) by lia. subst c. assert (v = x 0%nat f) by (cbn in Hv; congruence). subst v. apply Hx. }
    unfold lik_at. destruct k as [|[|]]; [| |lia]; cbn [nth_error bias]; [rewrite L1|rewrite L2]; apply rprod_ext; intros f Hf; reflexivity.
Qed.
(** Two components, split by feature 0: the likelihoods of all 32 data points sum to 13/12. *)
Theorem C60_total_refuted : exists nc g os (Es : list (einet nat)) cents,
  mixture_of nc g os Es /\ (forall E, In E Es -> discrete_leaf 2 (leafE E)) /\ shape cents = [length Es; nval (g_C g) * nval (g_F g)]%nat /\
  lsum (fun w => mixlik INR (nval (g_F g)) cents Es (point (nval (g_C g)) (nval (g_F g)) w) 0 0) (vectors 2 (nval (g_C g) * nval (g_F g))) = 13 / 12.
Proof.
  destruct ex_mixlik as (E1 & E2 & HM & HE & HL & _). exists (VInt 2), ex_bu_g, [ex_o third; ex_o quarter], [E1; E2], halves.
  split; [exact HM|]. split; [intros; apply HE; auto|]. split; [reflexivity|].
  change (nval (g_C ex_bu_g)) with 1%nat. change (nval (g_F ex_bu_g)) with 5%nat. change (1 * 5)%nat with 5%nat.
  rewrite (lsum_ext _ _ _ HL). cbn [vectors seq flat_map map app lsum]. rewrite !rprod_S, !rprod_0. cbn [nth bias flip]. field.
Qed.
Print Assumptions C60_total_refuted.
(** The likelihood of a row differs from the probability that it is sampled: weights 1/2, the row of zeros. *)
Theorem C60_sample_refuted : exists nc g os (Es : list (einet nat)) ws cents (x : nat -> nat -> nat),
  mixture_of nc g os Es /\ consistent g /\ (forall E, In E Es -> discrete_leaf 2 (leafE E) /\ lf_ctx (leafE E) = true) /\
  shape cents = [length Es; nval (g_C g) * nval (g_F g)]%nat /\ length ws = length Es /\ weights_ok ws /\ (forall c f, (x c f < 2)%nat) /\
  PrMix 2 Es (mixture_sample INR (nval (g_F g)) cents Es ws (mkMArgs (Some 1%nat) None CNone None false false 1 None)) (rows_are 1 (nval (g_C g)) (nval (g_F g)) (fun _ => x)) <>
  mixlik INR (nval (g_F g)) cents Es (one_row (nval (g_C g)) (nval (g_F g)) x) 0 0.
Proof.
  destruct ex_mixlik as (E1 & E2 & HM & HE & HL & HR). set (x := fun _ _ : nat => 0%nat).
  assert (HW: weights_ok [1 / 2; 1 / 2]) by (split; [intros w [<-|[<-|[]]]; lra|cbn [lsum]; lra]).
  exists (VInt 2), ex_bu_g, [ex_o third; ex_o quarter], [E1; E2], [1 / 2; 1 / 2], halves, x.
  split; [exact HM|]. split; [exact I|]. split; [exact HE|]. split; [reflexivity|]. split; [reflexivity|]. split; [exact HW|]. split; [intros; unfold x; lia|].
  unfold mixture_sample. cbn [m_ev].
  rewrite (C54_one_partial (VInt 2) ex_bu_g _ [E1; E2] 2 [1 / 2; 1 / 2] (fun _ _ => []) CNone 0 x HM I HE (le_n 2) HW); [|left; repeat split|intros; unfold x; lia].
  change (nval (g_C ex_bu_g)) with 1%nat. change (nval (g_F ex_bu_g)) with 5%nat. cbn [length]. rewrite !rsum_S, rsum_0.
  rewrite !HR by (unfold x; intros; lia).
  destruct (C60_row nat INR (VInt 2) ex_bu_g _ [E1; E2] halves (one_row 1 5 x) 1 0 0 HM) as (c & E & Hc & Hn & EQ); try (cbn; lia); try reflexivity.
  { intros E H. destruct (dims _ _ _ _ HM E H) as (HC & HF & _). change (nval (g_C ex_bu_g)) with 1%nat in HC. change (nval (g_F ex_bu_g)) with 5%nat in HF.
    split; [rewrite HC, HF; right; left; reflexivity|]. intros n c f v _ _ _ Hv. rewrite (dl_supp 2 _ (proj1 (HE E H))). cbn in Hv. assert (v = 0%nat) by (unfold x in Hv; congruence). subst v. reflexivity. }
  { intros; discriminate. }
  change (nval (g_F ex_bu_g)) with 5%nat in EQ. rewrite EQ. clear EQ.
  assert (c = 0%nat) as ->.
  { change (nval (g_C ex_bu_g)) with 1%nat in Hc. change (nval (g_F ex_bu_g)) with 5%nat in Hc.
    destruct Hc as (H1 & H2 & _). cbn [length] in H1. destruct c as [|[|]]; [reflexivity| |lia]. exfalso. specialize (H2 0%nat ltac:(cbn; lia)).
    unfold far in H2. rewrite !rsum_1, !rsum_S, !rsum_0 in H2. unfold value in H2. change (0 * 5 + 0)%nat with 0%nat in H2. change (0 * 5 + 1)%nat with 1%nat in H2. change (0 * 5 + 2)%nat with 2%nat in H2. change (0 * 5 + 3)%nat with 3%nat in H2. change (0 * 5 + 4)%nat with 4%nat in H2.
    cbn in H2. lra. }
  pose proof (HR x 0%nat ltac:(unfold x; intros; lia) ltac:(lia)) as R0. unfold lik_at in R0. cbn [nth_error] in R0, Hn.
  assert (X := f_equal (fun o => match o with Some e => e | None => E end) Hn). cbn in X. subst E. rewrite R0.
  unfold share. cbn [nth lsum]. rewrite !rprod_S, !rprod_0. unfold x. cbn [bias flip]. intros Z. field_simplify in Z. lra.
Qed.
Print Assumptions C60_sample_refuted.
(** A network that splits the coins of the example by feature 0: the row 0 1 0 1 0 belongs to component 0. *)
Example C60_ex : exists nc g os (Es : list (einet nat)) cents, mixture_of nc g os Es /\ length Es = 2%nat /\
  shape cents = [length Es; nval (g_C g) * nval (g_F g)]%nat /\ mixlik INR 5 cents Es (point 1 5 [0; 1; 0; 1; 0]%nat) 0 0 = 4 / 243.
Proof.
  destruct ex_mixlik as (E1 & E2 & HM & HE & HL & _). exists (VInt 2), ex_bu_g, [ex_o third; ex_o quarter], [E1; E2], halves.
  split; [exact HM|]. split; [reflexivity|]. split; [reflexivity|]. rewrite HL by (vm_compute; tauto). rewrite !rprod_S, rprod_0. cbn [nth bias flip]. field.
Qed.
