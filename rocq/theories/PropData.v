(** C38, C39, C43, C44, C45: preprocessing, sampler, initial statistics, histogram bins, splits. *)
From Coq Require Import List Arith Lia Bool ZArith Reals Lra Permutation Sorted.
Import ListNotations.
From Verif Require Import Base RSum Num Tensor TypeChecks Data.
Local Open Scope R_scope.

(** * C38: pixels *)
Lemma floor_spec x z : IZR z <= x < IZR z + 1 -> rfloor x = z.
Proof.
  intros [H1 H2]. unfold rfloor. destruct (base_Int_part x) as [A B].
  assert (IZR (Int_part x) < IZR (z + 1)) by (rewrite plus_IZR; lra).
  assert (IZR z < IZR (Int_part x + 1)) by (rewrite plus_IZR; lra).
  apply lt_IZR in H, H0. lia.
Qed.
Lemma floor_bounds x : IZR (rfloor x) <= x < IZR (rfloor x) + 1.
Proof. unfold rfloor. destruct (base_Int_part x). lra. Qed.
Lemma rtrunc_nonneg x : 0 <= x -> rtrunc x = rfloor x.
Proof. intros H. unfold rtrunc. destruct (Rle_dec 0 x); [reflexivity|lra]. Qed.
Lemma floor_IZR z : rfloor (IZR z) = z.
Proof. apply floor_spec. lra. Qed.
Lemma floor_nonneg x : 0 <= x -> (0 <= rfloor x)%Z.
Proof. intros H. destruct (floor_bounds x) as [_ B]. apply Z.lt_succ_r. apply lt_IZR. rewrite succ_IZR. lra. Qed.
Lemma pow_IZR2 n : 2 ^ n = IZR (2 ^ Z.of_nat n).
Proof. rewrite <- pow_IZR. reflexivity. Qed.

(** The value of a pixel: the floor of its bucket. *)
Lemma preprocess_value p n : 0 <= p <= 1 -> (n <= 8)%nat ->
  preprocess_discrete p n = Ok (rfloor (p * 255 / 2 ^ (8 - n))).
Proof.
  intros [P0 P1] Hn. unfold preprocess_discrete, reduce_bits.
  destruct (Rle_dec 0 p); [|lra]. destruct (Rle_dec p 1); [|lra]. cbn [assert bind].
  destruct (Nat.ltb_spec n 8).
  - assert (Q: 0 <= p * 255 / 2 ^ (8 - n)).
    { apply Rmult_le_pos; [lra|]. left. apply Rinv_0_lt_compat, pow_lt. lra. }
    rewrite rtrunc_nonneg, floor_IZR; auto. apply IZR_le. apply floor_nonneg. auto.
  - replace n with 8%nat by lia. simpl pow. replace (p * 255 / 1) with (p * 255) by field.
    rewrite rtrunc_nonneg by lra. reflexivity.
Qed.
Lemma buckets n : (n <= 8)%nat -> 2 ^ n * 2 ^ (8 - n) = 256.
Proof. intros. rewrite <- pow_add. replace (n + (8 - n))%nat with 8%nat by lia. simpl. ring. Qed.

(** A pixel in [0, 1] reduced to [n] bits lies in the support of the Binomial leaf for [n] bits. *)
Theorem C38_binomial p n : 0 <= p <= 1 -> (1 <= n <= 8)%nat ->
  exists v, preprocess_discrete p n = Ok v /\ in_binomial (binomial_total_count n) v.
Proof.
  intros Hp Hn. eexists. split; [apply preprocess_value; auto; lia|].
  pose proof (buckets n ltac:(lia)) as B. assert (P: 0 < 2 ^ (8 - n)) by (apply pow_lt; lra).
  assert (Q: 0 <= p * 255 / 2 ^ (8 - n)).
  { apply Rmult_le_pos; [lra|]. left. apply Rinv_0_lt_compat. auto. }
  unfold in_binomial, binomial_total_count. split; [apply floor_nonneg; auto|].
  apply Z.lt_succ_r. apply lt_IZR. destruct (floor_bounds (p * 255 / 2 ^ (8 - n))) as [F _].
  rewrite succ_IZR, minus_IZR, <- pow_IZR2.
  assert (p * 255 / 2 ^ (8 - n) < 2 ^ n).
  { apply Rmult_lt_reg_r with (2 ^ (8 - n)); auto. rewrite B. unfold Rdiv. rewrite Rmult_assoc, Rinv_l by lra. lra. }
  lra.
Qed.
Print Assumptions C38_binomial.

(** The Categorical leaf gets one bin too few: a pixel is in its support iff it is not in the
    last bucket. *)
Theorem C38_categorical_partial p n : 0 <= p <= 1 -> (1 <= n <= 8)%nat ->
  exists v, preprocess_discrete p n = Ok v /\
    (in_categorical (categorical_num_bins n) v <-> p * 255 < (2 ^ n - 1) * 2 ^ (8 - n)).
Proof.
  intros Hp Hn. eexists. split; [apply preprocess_value; auto; lia|].
  assert (P: 0 < 2 ^ (8 - n)) by (apply pow_lt; lra).
  assert (Q: 0 <= p * 255 / 2 ^ (8 - n)).
  { apply Rmult_le_pos; [lra|]. left. apply Rinv_0_lt_compat. auto. }
  unfold in_categorical, categorical_num_bins. destruct (floor_bounds (p * 255 / 2 ^ (8 - n))) as [F1 F2].
  set (z := rfloor (p * 255 / 2 ^ (8 - n))) in *.
  assert (E: p * 255 = p * 255 / 2 ^ (8 - n) * 2 ^ (8 - n)) by (field; lra).
  split.
  - intros [_ H]. assert (IZR z + 1 <= 2 ^ n - 1).
    { rewrite pow_IZR2, <- minus_IZR, <- plus_IZR. apply IZR_le. lia. }
    rewrite E. apply Rmult_lt_compat_r; lra.
  - intros H. split; [apply floor_nonneg; auto|]. apply lt_IZR. rewrite minus_IZR, <- pow_IZR2.
    rewrite E in H. apply Rmult_lt_reg_r in H; lra.
Qed.
Print Assumptions C38_categorical_partial.
(** So a white pixel is always outside. *)
Theorem C38_categorical_refuted n : (1 <= n <= 8)%nat ->
  exists v, preprocess_discrete 1 n = Ok v /\ ~ in_categorical (categorical_num_bins n) v.
Proof.
  intros Hn. destruct (C38_categorical_partial 1 n ltac:(lra) Hn) as (v & E & I). exists v. split; auto. rewrite I.
  pose proof (buckets n ltac:(lia)) as B. assert (1 <= 2 ^ (8 - n)) by (apply pow_R1_Rle; lra). nra.
Qed.
Print Assumptions C38_categorical_refuted.

(** With 2^n bins, inputs for Gaussian leaves lie in [-1/2, 1/2), with and without added noise. *)
Theorem C38_gauss p n u : 0 <= p <= 1 -> (1 <= n <= 8)%nat ->
  match u with Some u => 0 <= u < 1 | None => True end ->
  exists v, preprocess_gauss p n (2 ^ n) u = Ok v /\ -1/2 <= v < 1/2.
Proof.
  intros Hp Hn Hu. unfold preprocess_gauss, reduce_bits.
  destruct (Rle_dec 0 p); [|lra]. destruct (Rle_dec p 1); [|lra]. cbn [assert bind].
  pose proof (buckets n ltac:(lia)) as B. assert (P: 0 < 2 ^ (8 - n)) by (apply pow_lt; lra).
  assert (P2: 0 < 2 ^ n) by (apply pow_lt; lra).
  set (x := if (n <? 8)%nat then _ else _).
  assert (X: 0 <= x <= 2 ^ n - 1).
  { unfold x. destruct (Nat.ltb_spec n 8).
    - destruct (C38_binomial p n Hp Hn) as (v & E & H1 & H2). rewrite preprocess_value in E by (auto; lia).
      assert (E': rfloor (p * 255 / 2 ^ (8 - n)) = v) by congruence. rewrite E'. unfold binomial_total_count in H2.
      apply IZR_le in H1, H2. rewrite minus_IZR, <- pow_IZR2 in H2. lra.
    - replace n with 8%nat by lia. simpl pow. lra. }
  assert (I: 0 < / 2 ^ n) by (apply Rinv_0_lt_compat; auto).
  assert (Y: forall t, 0 <= t < 1 -> - 1/2 <= x / 2 ^ n - 1/2 + t / 2 ^ n < 1/2).
  { intros t Ht. replace (x / 2 ^ n - 1/2 + t / 2 ^ n) with ((x + t) * / 2 ^ n - 1/2) by (field; lra).
    assert (0 <= (x + t) * / 2 ^ n) by (apply Rmult_le_pos; lra).
    assert ((x + t) * / 2 ^ n < 2 ^ n * / 2 ^ n) by (apply Rmult_lt_compat_r; lra).
    rewrite Rinv_r in H0 by lra. lra. }
  destruct u as [u|]; (eexists; split; [reflexivity|]).
  - apply Y; auto.
  - specialize (Y 0 ltac:(lra)). replace (0 / 2 ^ n) with 0 in Y by (field; lra). lra.
Qed.
Print Assumptions C38_gauss.
Example C38_ex : 0 <= 1/3 <= 1 /\ preprocess_discrete (1/3) 3 = Ok 2%Z /\ preprocess_discrete 1 3 = Ok 7%Z /\ categorical_num_bins 3 = 7%Z.
Proof.
  split; [lra|]. split; [|split; [|reflexivity]]; rewrite preprocess_value by (lra || lia); f_equal; apply floor_spec; simpl; lra.
Qed.

(** * C39: the training sampler *)
Section Sampler.
Variables (size : nat) (shuffle : bool) (perm : nat -> list nat).
Hypothesis Hperm : forall k, Permutation (perm k) (seq 0 size).

Lemma islice_all l : islice 0 1 l = l.
Proof. induction l as [|x l IH]; simpl; auto. f_equal. auto. Qed.
Lemma turn_perm k : Permutation (turn size shuffle perm k) (seq 0 size).
Proof. unfold turn. destruct shuffle; auto. Qed.
Lemma turn_length k : length (turn size shuffle perm k) = size.
Proof. rewrite (Permutation_length (turn_perm k)), seq_length. auto. Qed.
Lemma yielded_length k : length (yielded size shuffle perm k) = (k * size)%nat.
Proof. induction k; simpl; auto. rewrite app_length, IHk, turn_length. lia. Qed.
Lemma yielded_skip k n : (k < n)%nat ->
  firstn size (skipn (k * size) (yielded size shuffle perm n)) = turn size shuffle perm k.
Proof.
  induction n as [|n IH]; intros H; [lia|]. cbn [yielded].
  destruct (Nat.eq_dec k n) as [->|].
  - rewrite <- yielded_length, skipn_app, skipn_all, Nat.sub_diag. simpl.
    rewrite <- (turn_length n) at 1. apply firstn_all.
  - rewrite skipn_app, firstn_app.
    assert (L: (size <= length (skipn (k * size) (yielded size shuffle perm n)))%nat).
    { rewrite skipn_length, yielded_length. replace n with (S k + (n - S k))%nat by lia.
      rewrite Nat.mul_add_distr_r. simpl. lia. }
    replace (size - _)%nat with 0%nat by lia. simpl. rewrite app_nil_r. apply IH. lia.
Qed.
Lemma count_perm k i : (i < size)%nat -> count_occ Nat.eq_dec (turn size shuffle perm k) i = 1%nat.
Proof.
  intros Hi. pose proof (turn_perm k) as P. apply Permutation_sym in P.
  apply NoDup_count_occ'.
  - eapply Permutation_NoDup; [exact P|apply seq_NoDup].
  - eapply Permutation_in; [exact P|]. apply in_seq. lia.
Qed.
Lemma count_yielded n i : (i < size)%nat -> count_occ Nat.eq_dec (yielded size shuffle perm n) i = n.
Proof.
  intros Hi. induction n; simpl; auto. rewrite count_occ_app, IHn, count_perm by auto. lia.
Qed.
End Sampler.

(** Every aligned block of [size] indices is a permutation of range(size) (without shuffling: range
    itself), and in every beginning of the stream two indices occur equally often up to one. *)
Theorem C39_blocks size shuffle perm : (0 < size)%nat -> (forall k, Permutation (perm k) (seq 0 size)) ->
  forall n k, (k < n)%nat ->
  let block := firstn size (skipn (k * size) (sampler_yielded size shuffle perm n)) in
  length (sampler_yielded size shuffle perm n) = (n * size)%nat /\
  Permutation block (seq 0 size) /\ (shuffle = false -> block = seq 0 size) /\ (shuffle = true -> block = perm k).
Proof.
  intros Hs Hp n k Hk. cbv zeta. unfold sampler_yielded. rewrite islice_all.
  split; [apply yielded_length; auto|]. rewrite yielded_skip by auto. split; [apply turn_perm; auto|].
  unfold turn. destruct shuffle; split; congruence.
Qed.
Print Assumptions C39_blocks.
Theorem C39_balanced size shuffle perm : (0 < size)%nat -> (forall k, Permutation (perm k) (seq 0 size)) ->
  forall n t i j, (t <= n * size)%nat -> (i < size)%nat -> (j < size)%nat ->
  let seen := firstn t (sampler_yielded size shuffle perm n) in
  (count_occ Nat.eq_dec seen i <= count_occ Nat.eq_dec seen j + 1)%nat.
Proof.
  intros Hs Hp n t i j Ht Hi Hj. cbv zeta. unfold sampler_yielded. rewrite islice_all.
  assert (G: forall i, (i < size)%nat ->
     (t / size <= count_occ Nat.eq_dec (firstn t (yielded size shuffle perm n)) i <= t / size + 1)%nat).
  2:{ destruct (G i Hi), (G j Hj). lia. }
  clear i j Hi Hj. intros i Hi. revert t Ht. induction n as [|n IH]; intros t Ht.
  - assert (t = 0)%nat by lia. subst t. rewrite Nat.div_0_l by lia. simpl. lia.
  - cbn [yielded]. rewrite firstn_app, count_occ_app, yielded_length by auto.
    destruct (Nat.le_gt_cases t (n * size)) as [L|L].
    + replace (t - n * size)%nat with 0%nat by lia. specialize (IH t L). simpl. lia.
    + rewrite firstn_all2 by (rewrite yielded_length; auto; lia). rewrite count_yielded by auto.
      set (m := (t - n * size)%nat). assert (Hm: (1 <= m <= size)%nat) by lia.
      pose proof (count_perm size shuffle perm Hp n i Hi) as C.
      rewrite <- (firstn_skipn m (turn size shuffle perm n)), count_occ_app in C.
      destruct (Nat.eq_dec m size) as [E|E].
      * assert (t / size = S n)%nat. { symmetry. apply Nat.div_unique with (r := 0%nat); lia. }
        rewrite firstn_all2 by (rewrite turn_length; auto; lia).
        pose proof (count_perm size shuffle perm Hp n i Hi). lia.
      * assert (t / size = n)%nat. { symmetry. apply Nat.div_unique with (r := m); lia. }
        lia.
Qed.
Print Assumptions C39_balanced.
Example C39_ex : forall k, Permutation (if Nat.even k then [2; 0; 1] else [1; 0; 2])%nat (seq 0 3).
Proof.
  intros k. destruct (Nat.even k); simpl.
  - apply perm_trans with [0; 2; 1]%nat; [constructor|constructor; constructor].
  - constructor.
Qed.

(** * C45: split sizes *)
Theorem C45_by_difference N : let '(a, b) := split_by_difference N in
  (0 <= a)%Z /\ (0 <= b)%Z /\ random_split_ok N (split_by_difference N) = true.
Proof.
  unfold split_by_difference, random_split_ok. cbn [fst snd].
  assert (round_tenths (9 * N) <= N)%nat.
  { unfold round_tenths. pose proof (Nat.div_mod (9 * N) 10 ltac:(lia)). pose proof (Nat.mod_upper_bound (9 * N) 10 ltac:(lia)).
    destruct (Nat.ltb_spec ((9 * N) mod 10) 5); [lia|]. destruct (Nat.ltb_spec 5 ((9 * N) mod 10)); [lia|]. destruct (Nat.even _); lia. }
  split; [lia|]. split; [lia|]. apply Z.eqb_eq. lia.
Qed.
Print Assumptions C45_by_difference.
(** Rounding both parts (svhn, lsun) fails exactly for the sizes that end in 5. *)
Theorem C45_by_rounding_partial N : random_split_ok N (split_by_rounding N) = true <-> (N mod 10 <> 5)%nat.
Proof.
  unfold split_by_rounding, random_split_ok. cbn [fst snd]. rewrite Z.eqb_eq.
  pose proof (Nat.div_mod N 10 ltac:(lia)) as E. pose proof (Nat.mod_upper_bound N 10 ltac:(lia)) as B.
  set (q := (N / 10)%nat) in *. set (r := (N mod 10)%nat) in *.
  assert (D: (9 * N = 10 * (9 * q + (9 * r) / 10) + (9 * r) mod 10)%nat).
  { pose proof (Nat.div_mod (9 * r) 10 ltac:(lia)). lia. }
  assert (Q: ((9 * N) / 10 = 9 * q + (9 * r) / 10)%nat).
  { symmetry. apply Nat.div_unique with (r := ((9 * r) mod 10)%nat); [apply Nat.mod_upper_bound; lia|lia]. }
  assert (M: ((9 * N) mod 10 = (9 * r) mod 10)%nat) by (pose proof (Nat.div_mod (9 * N) 10 ltac:(lia)); lia).
  unfold round_tenths. rewrite Q, M. fold q r. clearbody q r. clear Q M D.
  destruct r as [|[|[|[|[|[|[|[|[|[|r]]]]]]]]]]; try lia;
    try (change (9 * 5 / 10)%nat with 4%nat; change ((9 * 5) mod 10)%nat with 5%nat;
         assert (Ev: Nat.even (9 * q + 4) = Nat.even q)
           by (rewrite Nat.even_add, Nat.even_mul; simpl; destruct (Nat.even q); reflexivity);
         cbn [Nat.ltb Nat.leb]; rewrite Ev; destruct (Nat.even q); lia);
    match goal with |- context [(9 * ?k / 10)%nat] =>
      let d := eval vm_compute in (9 * k / 10)%nat in let m := eval vm_compute in ((9 * k) mod 10)%nat in
      change (9 * k / 10)%nat with d; change ((9 * k) mod 10)%nat with m end;
    cbn [Nat.ltb Nat.leb]; lia.
Qed.
Print Assumptions C45_by_rounding_partial.
Theorem C45_by_rounding_refuted : exists N, random_split_ok N (split_by_rounding N) = false.
Proof. exists 15%nat. reflexivity. Qed.
Print Assumptions C45_by_rounding_refuted.

(** * C44: histogram bins *)
Lemma fold_max_ge l : forall x, x <= fold_left Rmax l x /\ forall y, In y l -> y <= fold_left Rmax l x.
Proof.
  induction l as [|z l IH]; intros x; simpl; [split; [lra|tauto]|].
  destruct (IH (Rmax x z)) as [A B]. pose proof (Rmax_l x z). pose proof (Rmax_r x z). split; [lra|].
  intros y [<-|H']; [lra|auto].
Qed.
Lemma fold_min_le l : forall x, fold_left Rmin l x <= x /\ forall y, In y l -> fold_left Rmin l x <= y.
Proof.
  induction l as [|z l IH]; intros x; simpl; [split; [lra|tauto]|].
  destruct (IH (Rmin x z)) as [A B]. pose proof (Rmin_l x z). pose proof (Rmin_r x z). split; [lra|].
  intros y [<-|H']; [lra|auto].
Qed.
Lemma max_list_ge l y : In y l -> y <= rmax_list l.
Proof. destruct l as [|x l]; simpl; [tauto|]. destruct (fold_max_ge l x) as [A B]. intros [<-|H]; auto. Qed.
Lemma min_list_le l y : In y l -> rmin_list l <= y.
Proof. destruct l as [|x l]; simpl; [tauto|]. destruct (fold_min_le l x) as [A B]. intros [<-|H]; auto. Qed.
Lemma in_finite a x : In x (finite_of a) <-> In (Fin x) a.
Proof.
  unfold finite_of. rewrite in_flat_map. split.
  - intros (y & Hy & H). destruct y; simpl in H; try tauto. destruct H as [->|[]]; auto.
  - intros H. exists (Fin x). split; simpl; auto.
Qed.
Lemma ceil_ge1 x : 0 < x -> (1 <= rceil x)%Z.
Proof.
  intros H. unfold rceil. destruct (base_Int_part (- x)) as [A B].
  assert (IZR (Int_part (- x)) < 0) by lra. apply lt_IZR in H0. lia.
Qed.
Lemma linspace_spec f l n : (1 <= n)%nat -> f < l ->
  length (linspace f l n) = (n + 1)%nat /\ nth 0 (linspace f l n) 0 = f /\ nth n (linspace f l n) 0 = l /\
  forall i, (i < n)%nat -> nth i (linspace f l n) 0 < nth (S i) (linspace f l n) 0.
Proof.
  intros Hn H. unfold linspace.
  assert (P: 0 < INR n) by (apply lt_0_INR; lia).
  assert (G: forall i, (i < n + 1)%nat -> nth i (map (fun i => f + INR i * ((l - f) / INR n)) (seq 0 (n + 1))) 0 = f + INR i * ((l - f) / INR n)).
  { intros i Hi. apply (nth_map_seq (fun i => f + INR i * ((l - f) / INR n))). auto. }
  split; [rewrite map_length, seq_length; auto|]. rewrite !G by lia.
  split; [simpl; ring|]. split; [field; lra|].
  intros i Hi. rewrite !G by lia. rewrite S_INR.
  assert (0 < (l - f) / INR n) by (apply Rdiv_lt_0_compat; lra). lra.
Qed.

(** The result of [outer_edges]: an interval of positive length that covers the given range or
    all the data. *)
Lemma outer_edges_cover a range f l : outer_edges a range = Ok (f, l) ->
  f < l /\ match range with
           | Some (lo, hi) => exists x y, lo = Fin x /\ hi = Fin y /\ f <= x /\ y <= l
           | None => forall v, In v a -> exists x, v = Fin x /\ f <= x <= l
           end.
Proof.
  unfold outer_edges. intros H. destruct range as [[lo hi]|].
  - destruct lo as [x| | |]; try discriminate. destruct hi as [y| | |]; try discriminate.
    destruct (Rlt_dec y x) as [|n0]; [discriminate|]. cbn [bind] in H.
    destruct (Req_EM_T x y) as [e|e]; injection H as <- <-; split; try lra; exists x, y; repeat split; auto; lra.
  - destruct a as [|v a].
    + cbn [bind] in H. destruct (Req_EM_T 0 1); inversion H; subst; split; try lra; intros ? [].
    + destruct (all_finite (v :: a)) eqn:F; [|discriminate]. cbn [bind] in H.
      assert (C: forall w, In w (v :: a) -> exists x, w = Fin x /\ rmin_list (finite_of (v :: a)) <= x <= rmax_list (finite_of (v :: a))).
      { intros w Hw. unfold all_finite in F. rewrite forallb_forall in F. specialize (F w Hw).
        destruct w as [x| | |]; try discriminate. exists x. split; auto.
        assert (In x (finite_of (v :: a))) by (apply in_finite; auto).
        split; [apply min_list_le; auto|apply max_list_ge; auto]. }
      destruct (C v (or_introl eq_refl)) as (x0 & _ & B).
      set (m := rmin_list _) in *. set (M := rmax_list _) in *.
      destruct (Req_EM_T m M) as [e|e]; injection H as <- <-; (split; [lra|]);
        intros w Hw; destruct (C w Hw) as (x & -> & Bx); exists x; split; auto; lra.
Qed.
Theorem C44_bins a range edges f l n : bin_edges a range = Ok (edges, (f, l, n)) ->
  (1 <= n)%Z /\ length edges = (Z.to_nat n + 1)%nat /\
  nth 0 edges 0 = f /\ nth (Z.to_nat n) edges 0 = l /\
  (forall i, (i < Z.to_nat n)%nat -> nth i edges 0 < nth (S i) edges 0) /\
  match range with
  | Some (lo, hi) => exists x y, lo = Fin x /\ hi = Fin y /\ f <= x /\ y <= l
  | None => forall v, In v a -> exists x, v = Fin x /\ f <= x <= l
  end.
Proof.
  unfold bin_edges. intros H. destruct (outer_edges a range) as [[f' l']|] eqn:E; [|discriminate]. cbn [bind] in H.
  apply outer_edges_cover in E as [L C].
  set (d := match range with None => _ | Some _ => _ end) in H.
  set (k := match d with [] => _ | _ :: _ => _ end) in H.
  injection H as E1 E2 E3 E4. subst f' l'. rewrite E4 in E1.
  assert (K: (1 <= n)%Z).
  { rewrite <- E4. unfold k. destruct d; [lia|]. destruct (Rlt_dec 0 (bin_auto _)); [|lia].
    apply ceil_ge1. apply Rdiv_lt_0_compat; lra. }
  split; auto. subst edges. destruct (linspace_spec f l (Z.to_nat n) ltac:(lia) L) as (A1 & A2 & A3 & A4).
  repeat split; auto.
Qed.
Print Assumptions C44_bins.
(** It returns for every finite data vector, and for every finite range in the right order
    whatever the data. *)
Theorem C44_total a range :
  match range with
  | Some (lo, hi) => exists x y, lo = Fin x /\ hi = Fin y /\ x <= y
  | None => forall v, In v a -> exists x, v = Fin x
  end -> exists r, bin_edges a range = Ok r.
Proof.
  intros H. unfold bin_edges.
  assert (exists p, outer_edges a range = Ok p) as [[f l] ->]; [|cbn [bind]; eauto].
  unfold outer_edges. destruct range as [[lo hi]|].
  - destruct H as (x & y & -> & -> & L). destruct (Rlt_dec y x); [lra|]. cbn [bind]. eauto.
  - destruct a as [|v a]; [cbn [bind]; eauto|]. replace (all_finite (v :: a)) with true; [cbn [bind]; eauto|].
    symmetry. unfold all_finite. apply forallb_forall. intros w Hw. destruct (H w Hw) as (x & ->). reflexivity.
Qed.
Print Assumptions C44_total.
Example C44_ex : exists e f l n, bin_edges [Fin 1; Fin 3; Fin 2; Fin 7] None = Ok (e, (f, l, n)) /\
  bin_edges [Fin 1; NaN; PInf] (Some (Fin 0, Fin 4)) <> Err ValueErr.
Proof.
  destruct (C44_total [Fin 1; Fin 3; Fin 2; Fin 7] None) as ([e [[f l] n]] & E).
  { intros v Hv. simpl in Hv. destruct Hv as [<-|[<-|[<-|[<-|[]]]]]; eauto. }
  exists e, f, l, n. split; auto.
  destruct (C44_total [Fin 1; NaN; PInf] (Some (Fin 0, Fin 4))) as (r & ->); [|discriminate].
  exists 0, 4. repeat split; lra.
Qed.
Lemma ceil_ge x : x <= IZR (rceil x).
Proof. unfold rceil. rewrite opp_IZR. destruct (base_Int_part (- x)). lra. Qed.
Lemma finite_map d : finite_of (map Fin d) = d.
Proof. induction d; simpl; [auto|]. f_equal. exact IHd. Qed.
Lemma sturges_pos d : d <> [] -> rmin_list d < rmax_list d -> 0 < bin_sturges d.
Proof.
  intros H L. unfold bin_sturges. apply Rdiv_lt_0_compat; [lra|].
  assert (0 <= ln (INR (length d)) / ln 2); [|lra].
  apply Rmult_le_pos; [|apply Rlt_le, Rinv_0_lt_compat; rewrite <- ln_1; apply ln_increasing; lra].
  destruct d as [|x d]; [contradiction|]. rewrite <- ln_1. cbn [length]. rewrite S_INR. pose proof (pos_INR (length d)).
  destruct (Req_dec (INR (length d)) 0) as [->|]; [rewrite Rplus_0_l; lra|]. left. apply ln_increasing; lra.
Qed.
(** There are enough bins: by Sturges' rule at least log2 N + 1 of them whenever the data are not constant, even if the
    interquartile range is zero, and by the rule of Freedman and Diaconis none is wider than 2 IQR / N^(1/3) when the
    interquartile range is positive. *)
Theorem C44_enough_bins d edges f l n x y : bin_edges (map Fin d) None = Ok (edges, (f, l, n)) -> In x d -> In y d -> x <> y ->
  ln (INR (length d)) / ln 2 + 1 <= IZR n /\
  let iqr := quantile (3/4) d - quantile (1/4) d in
  (0 < iqr -> (l - f) / IZR n <= 2 * iqr * Rpower (INR (length d)) (- 1 / 3)).
Proof.
  intros H Hx Hy N.
  assert (ML: rmin_list d < rmax_list d).
  { pose proof (min_list_le d x Hx). pose proof (min_list_le d y Hy). pose proof (max_list_ge d x Hx). pose proof (max_list_ge d y Hy).
    destruct (Rtotal_order x y) as [|[|]]; [lra|contradiction|lra]. }
  assert (Nil: d <> []) by (intros ->; destruct Hx).
  unfold bin_edges, outer_edges in H.
  assert (E: exists v a, map Fin d = v :: a) by (destruct d; [contradiction|simpl; eauto]). destruct E as (v & a & E).
  rewrite E in H. rewrite <- E in H. replace (all_finite (map Fin d)) with true in H
    by (symmetry; unfold all_finite; apply forallb_forall; intros w Hw; apply in_map_iff in Hw as (z & <- & _); reflexivity).
  cbn [bind] in H. rewrite finite_map in H.
  destruct (Req_EM_T (rmin_list d) (rmax_list d)) as [|_]; [lra|]. cbn [bind] in H.
  destruct d as [|z d]; [contradiction|]. set (D := z :: d) in *.
  injection H as _ Ef El En.
  pose proof (sturges_pos D Nil ML) as SP.
  assert (LP: 0 < ln 2) by (rewrite <- ln_1; apply ln_increasing; lra).
  assert (SD: 0 < ln (INR (length D)) / ln 2 + 1).
  { unfold bin_sturges in SP. destruct (Rlt_dec 0 (ln (INR (length D)) / ln 2 + 1)); auto.
    exfalso. assert (Q: ln (INR (length D)) / ln 2 + 1 <= 0) by lra.
    destruct Q as [Q|Q]; [|rewrite Q in SP; unfold Rdiv in SP; rewrite Rinv_0 in SP; lra].
    unfold Rdiv at 1 in SP. apply Rinv_lt_0_compat in Q.
    assert ((rmax_list D - rmin_list D) * / (ln (INR (length D)) / ln 2 + 1) < 0) by (rewrite <- (Rmult_0_r (rmax_list D - rmin_list D)); apply Rmult_lt_compat_l; lra).
    lra. }
  assert (W: 0 < bin_auto D /\ bin_auto D <= bin_sturges D /\ (0 < bin_fd D -> bin_auto D <= bin_fd D)).
  { unfold bin_auto. destruct (Rlt_dec 0 (bin_fd D)) as [P|P]; [|repeat split; lra].
    repeat split; [apply Rmin_glb_lt; auto|apply Rmin_r|intros; apply Rmin_l]. }
  destruct W as (W1 & W2 & W3). destruct (Rlt_dec 0 (bin_auto D)) as [_|]; [|contradiction].
  pose proof (ceil_ge ((rmax_list D - rmin_list D) / bin_auto D)) as K. change (rceil ((rmax_list D - rmin_list D) / bin_auto D) = n) in En. rewrite En in K.
  change (rmin_list D = f) in Ef. change (rmax_list D = l) in El. subst f l.
  assert (K2: rmax_list D - rmin_list D <= IZR n * bin_auto D).
  { apply (Rmult_le_compat_r (bin_auto D)) in K; [|lra]. unfold Rdiv in K. rewrite Rmult_assoc, Rinv_l, Rmult_1_r in K by lra. exact K. }
  assert (Pn: 0 < IZR n). { destruct (Rlt_dec 0 (IZR n)); auto. assert (IZR n * bin_auto D <= 0); [|lra].
    rewrite <- (Rmult_0_l (bin_auto D)). apply Rmult_le_compat_r; lra. }
  split.
  - assert (K3: rmax_list D - rmin_list D <= IZR n * bin_sturges D) by (eapply Rle_trans; [exact K2|apply Rmult_le_compat_l; lra]).
    unfold bin_sturges in K3. set (q := ln (INR (length D)) / ln 2 + 1) in *.
    apply (Rmult_le_reg_l ((rmax_list D - rmin_list D) / q)); [exact SP|].
    replace ((rmax_list D - rmin_list D) / q * q) with (rmax_list D - rmin_list D) by (field; lra). lra.
  - intros iqr P.
    assert (PF: bin_fd D = 2 * iqr * Rpower (INR (length D)) (- 1 / 3)) by reflexivity. rewrite <- PF.
    assert (0 < bin_fd D). { rewrite PF. apply Rmult_lt_0_compat; [lra|]. apply exp_pos. }
    specialize (W3 H). apply (Rmult_le_reg_r (IZR n)); [auto|].
    unfold Rdiv. rewrite Rmult_assoc, Rinv_l, Rmult_1_r by lra.
    eapply Rle_trans; [exact K2|]. rewrite Rmult_comm. apply Rmult_le_compat_r; lra.
Qed.
Print Assumptions C44_enough_bins.
(** The interquartile range of these data is zero; there are still at least log2 5 + 1 > 3 bins. *)
Example C44_flat_ex : exists e f l n, bin_edges (map Fin [1; 1; 1; 1; 7]) None = Ok (e, (f, l, n)) /\ (3 < n)%Z.
Proof.
  destruct (C44_total (map Fin [1; 1; 1; 1; 7]) None) as ([e [[f l] n]] & E).
  { intros v Hv. apply in_map_iff in Hv as (z & <- & _). eauto. }
  exists e, f, l, n. split; auto.
  destruct (C44_enough_bins _ _ _ _ _ 1 7 E) as [A _]; [simpl; tauto|simpl; tauto|lra|].
  apply lt_IZR. eapply Rlt_le_trans; [|exact A].
  assert (LP: 0 < ln 2) by (rewrite <- ln_1; apply ln_increasing; lra).
  assert (ln (2 * 2) < ln (INR (length [1; 1; 1; 1; 7]))) by (apply ln_increasing; simpl; lra).
  rewrite ln_mult in H by lra.
  assert (2 < ln (INR (length [1; 1; 1; 1; 7])) / ln 2); [|lra].
  apply (Rmult_lt_reg_r (ln 2)); [auto|]. unfold Rdiv. rewrite Rmult_assoc, Rinv_l, Rmult_1_r by lra. lra.
Qed.

(** The quartiles in these rules are interpolated linearly between the order statistics: for any sorted arrangement [s] of the data
    and any [k], the quantile of a level [q] with k <= q (N - 1) <= k + 1 is on the line from s_k to s_(k+1). *)
Lemma insert_perm x l : Permutation (x :: l) (insert_sorted x l).
Proof.
  induction l as [|y l IH]; simpl; [auto|]. destruct (Rle_dec x y); [auto|].
  eapply perm_trans; [apply perm_swap|]. apply perm_skip. exact IH.
Qed.
Lemma rsort_perm l : Permutation l (rsort l).
Proof. induction l; simpl; [constructor|]. eapply perm_trans; [apply perm_skip; exact IHl|]. apply insert_perm. Qed.
Lemma insert_sorted_ok x l : StronglySorted Rle l -> StronglySorted Rle (insert_sorted x l).
Proof.
  intros H. induction H as [|y l Hl IH Hy]; simpl; [repeat constructor|]. destruct (Rle_dec x y) as [L|L].
  - constructor; [constructor; auto|]. constructor; auto. eapply Forall_impl; [|exact Hy]. intros z Hz. cbn beta in *. lra.
  - constructor; auto. apply Forall_forall. intros z Hz. apply (Permutation_in _ (Permutation_sym (insert_perm x l))) in Hz as [<-|Hz]; [lra|].
    rewrite Forall_forall in Hy. auto.
Qed.
Lemma rsort_sorted l : StronglySorted Rle (rsort l).
Proof. induction l; simpl; [constructor|]. apply insert_sorted_ok. auto. Qed.
Lemma sorted_unique s t : StronglySorted Rle s -> StronglySorted Rle t -> Permutation s t -> s = t.
Proof.
  intros Hs. revert t. induction Hs as [|x s Hs IH Hx]; intros t Ht P.
  - symmetry. apply Permutation_nil. auto.
  - destruct Ht as [|y t Ht Hy]; [apply Permutation_sym, Permutation_nil in P; discriminate|].
    rewrite Forall_forall in Hx, Hy.
    assert (x = y).
    { assert (A: In x (y :: t)) by (eapply Permutation_in; [exact P|left; auto]). assert (B: In y (x :: s)) by (eapply Permutation_in; [apply Permutation_sym; exact P|left; auto]).
      destruct A as [A|A]; auto. destruct B as [B|B]; auto. apply Hx in B. apply Hy in A. lra. }
    subst y. f_equal. apply IH; auto. eapply Permutation_cons_inv. exact P.
Qed.
Theorem C44_quartiles l s q k : Permutation l s -> StronglySorted Rle s -> (k + 1 < length l)%nat ->
  INR k <= q * INR (length l - 1) <= INR k + 1 ->
  quantile q l = nth k s 0 + (q * INR (length l - 1) - INR k) * (nth (k + 1) s 0 - nth k s 0).
Proof.
  intros P S Hk [H1 H2]. unfold quantile. cbv zeta.
  rewrite (sorted_unique (rsort l) s (rsort_sorted l) S) by (eapply perm_trans; [apply Permutation_sym, rsort_perm|exact P]).
  pose proof (Permutation_length P) as Hl. set (pos := q * INR (length l - 1)) in *. destruct (Rlt_dec pos (INR k + 1)) as [L|L].
  - rewrite (floor_spec pos (Z.of_nat k)) by (rewrite <- INR_IZR_INZ; lra). rewrite Nat2Z.id, <- INR_IZR_INZ.
    rewrite (nth_indep s (nth k s 0) 0) by lia. reflexivity.
  - assert (Ep: pos = INR k + 1) by lra. rewrite (floor_spec pos (Z.of_nat (k + 1))) by (rewrite <- INR_IZR_INZ, plus_INR; simpl; lra).
    rewrite Nat2Z.id, <- INR_IZR_INZ, plus_INR, Ep. simpl (INR 1). ring.
Qed.
Print Assumptions C44_quartiles.
Example C44_quartiles_ex : quantile (3/4) [5; 1; 2] = 7 / 2 /\ quantile (1/4) [5; 1; 2] = 3 / 2.
Proof.
  assert (P: Permutation [5; 1; 2] [1; 2; 5]) by (apply (Permutation_cons_append [1; 2] 5)).
  assert (S: StronglySorted Rle [1; 2; 5]) by (repeat constructor; lra).
  rewrite (C44_quartiles _ _ (3/4) 1 P S), (C44_quartiles _ _ (1/4) 0 P S); simpl; lia || lra || (split; lra).
Qed.

(** * C43: initial leaf statistics *)
Definition mean_real (l : list R) : R := lsum (fun x => x) l / INR (length l).
Lemma mean_of_fin b : b <> [] -> mean_of b = Fin (mean_real b).
Proof.
  intros H. unfold mean_of, ndiv. destruct (Req_EM_T (INR (length b)) 0) as [e|]; [|reflexivity].
  exfalso. destruct b; [contradiction|]. simpl length in e. rewrite S_INR in e. pose proof (pos_INR (length b)). lra.
Qed.
Lemma fold_stat_fin stat (g : list R -> R) bs : (forall b, In b bs -> stat b = Fin (g b)) -> forall acc,
  fold_left (fun acc b => nadd acc (stat b)) bs (Fin acc) = Fin (acc + lsum g bs).
Proof.
  induction bs as [|b bs IH]; intros H acc; simpl; [f_equal; ring|].
  rewrite H by (simpl; auto). cbn [nadd]. rewrite IH by (intros; apply H; simpl; auto). f_equal. ring.
Qed.
Lemma average_fin stat g bs : bs <> [] -> (forall b, In b bs -> stat b = Fin (g b)) ->
  average_stat stat bs = Ok (Fin (lsum g bs / INR (length bs))).
Proof.
  intros Hne H. destruct bs as [|b bs]; [contradiction|]. unfold average_stat. rewrite H by (simpl; auto).
  rewrite (fold_stat_fin stat g) by (intros; apply H; simpl; auto). unfold ndiv.
  destruct (Req_EM_T _ 0) as [e|]; [|reflexivity].
  exfalso. simpl length in e. rewrite S_INR in e. pose proof (pos_INR (length bs)). lra.
Qed.
(** With batches of one size the averaged mean is the mean of all the data. *)
Theorem C43_mean_partial batches m e : batches <> [] -> (0 < m)%nat -> (forall b, In b batches -> length b = m) ->
  exists r, average_stat mean_of batches = Ok r /\
    init_mean r e = Fin (mean_real (concat batches) + 1/10 * e).
Proof.
  intros Hne Hm Hl.
  rewrite (average_fin mean_of mean_real); auto.
  2:{ intros b Hb. apply mean_of_fin. intros ->. specialize (Hl [] Hb). simpl in Hl. lia. }
  eexists. split; [reflexivity|]. unfold init_mean. cbn [nadd]. f_equal. f_equal.
  assert (P: 0 < INR m) by (apply lt_0_INR; lia).
  assert (E: forall bs, (forall b, In b bs -> length b = m) ->
     lsum mean_real bs = lsum (fun x => x) (concat bs) / INR m /\ length (concat bs) = (length bs * m)%nat).
  { induction bs as [|b bs IH]; intros H; simpl; [split; [field; lra|auto]|].
    destruct (IH (fun b Hb => H b (or_intror Hb))) as [I1 I2].
    rewrite I1, lsum_app, app_length, I2. unfold mean_real. rewrite (H b (or_introl eq_refl)). split; [field; lra|auto]. }
  destruct (E batches Hl) as [E1 E2]. unfold mean_real at 2. rewrite E1, E2, mult_INR.
  assert (0 < INR (length batches)) by (apply lt_0_INR; destruct batches; [contradiction|simpl; lia]).
  field. split; lra.
Qed.
Print Assumptions C43_mean_partial.
(** A smaller last batch counts as much as a full one. *)
Theorem C43_mean_refuted : exists batches r, (forall b, In b batches -> b <> []) /\
  average_stat mean_of batches = Ok r /\ r <> Fin (mean_real (concat batches)).
Proof.
  exists [[0; 0]; [3]], (Fin ((0 + 3) / 2)). split; [intros b [<-|[<-|[]]]; discriminate|]. split.
  - rewrite (average_fin mean_of mean_real) by (try discriminate; intros b [<-|[<-|[]]]; apply mean_of_fin; discriminate).
    unfold mean_real. simpl. f_equal. f_equal. field.
  - unfold mean_real. simpl. intros H. injection H as H.
    replace ((0 + (0 + (3 + 0))) / (1 + 1 + 1)) with 1 in H by field. lra.
Qed.
Print Assumptions C43_mean_refuted.
(** If every batch has at least two rows, the log-variance is defined, and at least log(1/1000). *)
Definition var_real (b : list R) : R :=
  lsum (fun x => (x - mean_real b) * (x - mean_real b)) b / (INR (length b) - 1).
Lemma var_of_fin b : (2 <= length b)%nat -> var_of b = Fin (var_real b) /\ 0 <= var_real b.
Proof.
  intros H. assert (b <> []) by (intros ->; simpl in H; lia).
  assert (2 <= INR (length b)) by (apply (le_INR 2); auto).
  unfold var_of. rewrite mean_of_fin by auto. cbn [toR]. unfold ndiv.
  destruct (Req_EM_T _ 0); [lra|]. split; [reflexivity|]. unfold var_real.
  apply Rmult_le_pos; [apply lsum_nonneg; intros x _; exact (Rle_0_sqr (x - mean_real b))|]. left. apply Rinv_0_lt_compat. lra.
Qed.
Theorem C43_logvar_partial batches e : batches <> [] -> (forall b, In b batches -> (2 <= length b)%nat) ->
  exists r, average_stat var_of batches = Ok r /\
  exists x, init_logvar r e = Fin x /\ ln (1/1000) <= x.
Proof.
  intros Hne H. rewrite (average_fin var_of var_real) by (auto; intros b Hb; apply var_of_fin; auto).
  eexists. split; [reflexivity|]. unfold init_logvar. cbn [nadd].
  assert (0 <= lsum var_real batches / INR (length batches)).
  { apply Rmult_le_pos; [apply lsum_nonneg; intros b Hb; apply var_of_fin; auto|].
    left. apply Rinv_0_lt_compat. apply lt_0_INR. destruct batches; [contradiction|simpl; lia]. }
  pose proof (Rmax_r (1/10 * e) 0).
  rewrite nlog_pos by lra. eexists. split; [reflexivity|].
  destruct (Rle_lt_or_eq_dec (1/1000) (lsum var_real batches / INR (length batches) + 1/1000 + Rmax (1/10 * e) 0)) as [L|E]; [lra| |].
  - left. apply ln_increasing; lra.
  - rewrite <- E. lra.
Qed.
Print Assumptions C43_logvar_partial.
(** A batch of one row makes it NaN. *)
Lemma ndiv_nan b : ndiv NaN b = NaN.
Proof. reflexivity. Qed.
Theorem C43_logvar_refuted x batches e : exists r, average_stat var_of (batches ++ [[x]]) = Ok r /\ init_logvar r e = NaN.
Proof.
  assert (V: var_of [x] = NaN).
  { unfold var_of. rewrite mean_of_fin by discriminate. unfold mean_real. simpl.
    replace (x + 0) with x by ring. replace (x / 1) with x by field. replace (x - x) with 0 by ring.
    replace (0 * 0 + 0) with 0 by ring. destruct (Req_EM_T (1 - 1) 0); [|lra].
    destruct (Rlt_dec 0 0); [lra|]. reflexivity. }
  assert (N: forall a, nadd a NaN = NaN) by (destruct a; reflexivity).
  destruct batches as [|b bs]; cbn [app average_stat].
  - rewrite V. cbn [fold_left]. rewrite ndiv_nan. eexists. split; [reflexivity|]. reflexivity.
  - rewrite fold_left_app. cbn [fold_left]. rewrite V, N, ndiv_nan. eexists. split; [reflexivity|]. reflexivity.
Qed.
Print Assumptions C43_logvar_refuted.
Example C43_ex : forall b, In b [[1; 2]; [3; 5]; [0; 1]] -> length b = 2%nat.
Proof. intros b [<-|[<-|[<-|[]]]]; reflexivity. Qed.
