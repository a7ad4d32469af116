(** Proofs about PiecewiseLinear.initialize: knots are increasing and heights form a density. *)
From Coq Require Import List Arith Lia Bool ZArith Reals Lra.
Import ListNotations.
From Verif Require Import Base RSum Num RefFwd Data PropData Piecewise RefPiecewise.
Local Open Scope R_scope.

(** Non-negative finite heights with a positive one. *)
Definition heights (d : list num) (r : list R) : Prop :=
  d = map Fin r /\ (forall x, In x r -> 0 <= x) /\ exists x, In x r /\ 0 < x.

Lemma increasing_cons a l : (l <> [] -> a < hd 0 l) -> increasing l -> increasing (a :: l).
Proof.
  intros H Hl [|i] Hi; simpl in *.
  - destruct l; simpl in *; [lia|]. apply H. discriminate.
  - apply Hl. lia.
Qed.
Lemma increasing_snoc l a : (l <> [] -> last l 0 < a) -> increasing l -> increasing (l ++ [a]).
Proof.
  intros H Hl i Hi. rewrite app_length in Hi. cbn [length] in Hi. destruct (Nat.eq_dec (S i) (length l)) as [E|N].
  - rewrite app_nth1 by lia. rewrite (app_nth2 l) by lia. rewrite E, Nat.sub_diag. cbn [nth].
    assert (Ln: l <> []) by (intros ->; simpl in E; lia). specialize (H Ln). rewrite last_nth in H. replace (length l - 1)%nat with i in H by lia. auto.
  - rewrite !app_nth1 by lia. apply Hl. lia.
Qed.
Lemma increasing_tail a l : increasing (a :: l) -> increasing l.
Proof. intros H i Hi. apply (H (S i)). simpl. lia. Qed.

(** * Histogram *)
Section Hist.
Variables (edges data : list R).
Hypothesis Hinc : increasing edges.
Hypothesis Hlen : (2 <= length edges)%nat.
Lemma bin_lt x : (bin_of edges x < length edges - 1)%nat.
Proof. unfold bin_of. lia. Qed.
Lemma bin_edges_of x : hd 0 edges <= x <= last edges 0 -> nth (bin_of edges x) edges 0 <= x <= nth (S (bin_of edges x)) edges 0.
Proof.
  intros [H1 H2]. rewrite hd_nth in H1. rewrite last_nth in H2. destruct (search_right_spec edges x) as (A & B & C). unfold bin_of.
  set (i := search_right (map Fin edges) x) in *.
  assert (Hi: (1 <= i)%nat) by (destruct i; [specialize (C ltac:(lia)); lra|lia]).
  destruct (Nat.eq_dec i (length edges)) as [E|N].
  - replace (Nat.min (i - 1) (length edges - 2)) with (length edges - 2)%nat by lia. replace (S (length edges - 2)) with (length edges - 1)%nat by lia.
    split; auto. apply B. lia.
  - replace (Nat.min (i - 1) (length edges - 2)) with (i - 1)%nat by lia. replace (S (i - 1)) with i by lia. split; [apply B; lia|left; apply C; lia].
Qed.
Lemma counted_in x : In x (counted edges data) <-> In x data /\ hd 0 edges <= x <= last edges 0.
Proof.
  unfold counted, within. rewrite filter_In. split; intros [H H']; split; auto.
  - destruct (Rle_dec (hd 0 edges) x); [|discriminate]. destruct (Rle_dec x (last edges 0)); [lra|discriminate].
  - destruct (Rle_dec (hd 0 edges) x); [|lra]. destruct (Rle_dec x (last edges 0)); [auto|lra].
Qed.
Lemma histogram_heights : (exists x, In x data /\ hd 0 edges <= x <= last edges 0) ->
  exists r, heights (histogram edges data) r /\ length r = (length edges - 1)%nat /\
    (forall i, (i < length edges - 1)%nat -> nth i r 0 = INR (bin_count edges data i) / INR (length (counted edges data)) / (nth (S i) edges 0 - nth i edges 0)).
Proof.
  intros (x & Hx & Hr). set (N := length (counted edges data)).
  assert (HN: (0 < N)%nat).
  { unfold N. assert (In x (counted edges data)) by (apply counted_in; auto). destruct (counted edges data); [contradiction|simpl; lia]. }
  assert (PN: 0 < INR N) by (apply lt_0_INR; auto).
  exists (map (fun i => INR (bin_count edges data i) / INR N / (nth (S i) edges 0 - nth i edges 0)) (seq 0 (length edges - 1))).
  assert (W: forall i, (i < length edges - 1)%nat -> 0 < nth (S i) edges 0 - nth i edges 0) by (intros i Hi; pose proof (Hinc i ltac:(lia)); lra).
  split; [split; [|split]|split].
  - unfold histogram. rewrite map_map. apply map_ext_in. intros i Hi. apply in_seq in Hi. fold N. specialize (W i ltac:(lia)).
    rewrite (ndiv_fin _ (INR N)) by lra. rewrite ndiv_fin by lra. reflexivity.
  - intros y Hy. apply in_map_iff in Hy as (i & <- & Hi). apply in_seq in Hi. specialize (W i ltac:(lia)).
    apply Rmult_le_pos; [|left; apply Rinv_0_lt_compat; auto]. apply Rmult_le_pos; [apply pos_INR|left; apply Rinv_0_lt_compat; auto].
  - exists (INR (bin_count edges data (bin_of edges x)) / INR N / (nth (S (bin_of edges x)) edges 0 - nth (bin_of edges x) edges 0)). split.
    + apply in_map_iff. exists (bin_of edges x). split; auto. apply in_seq. pose proof (bin_lt x). lia.
    + specialize (W (bin_of edges x) (bin_lt x)). apply Rmult_lt_0_compat; [|apply Rinv_0_lt_compat; auto]. apply Rmult_lt_0_compat; [|apply Rinv_0_lt_compat; auto].
      apply lt_0_INR. unfold bin_count. assert (In x (filter (fun x0 => (bin_of edges x0 =? bin_of edges x)%nat) (counted edges data))).
      { apply filter_In. split; [apply counted_in; auto|apply Nat.eqb_refl]. }
      destruct (filter _ _); [contradiction|simpl; lia].
  - rewrite map_length, seq_length. reflexivity.
  - intros i Hi. set (h := fun i => _). rewrite (nth_indep _ 0 (h 0%nat)) by (rewrite map_length, seq_length; auto).
    rewrite map_nth, seq_nth by auto. reflexivity.
Qed.
End Hist.

(** * Smoothing *)
Lemma smooth_heights alpha data breaks d r : (2 <= length breaks)%nat -> heights d r ->
  exists r', heights (pl_smooth alpha data breaks d) r' /\ length r' = length r.
Proof.
  intros Hb (-> & Hp & x & Hx & Px). unfold pl_smooth. destruct (Rlt_dec 0 alpha) as [La|La]; [|exists r; split; auto; split; eauto].
  set (n := INR (length data)). set (k := INR (length breaks - 1)). assert (0 <= n) by apply pos_INR. assert (0 < k) by (apply lt_0_INR; lia).
  pose proof (Rmult_lt_0_compat k alpha H0 La) as Pk.
  exists (map (fun p => (p * n + alpha) / (n + k * alpha)) r). split; [|apply map_length].
  assert (P: forall p, 0 <= p -> 0 < (p * n + alpha) / (n + k * alpha)).
  { intros p Hp'. apply Rmult_lt_0_compat; [|apply Rinv_0_lt_compat; lra]. pose proof (Rmult_le_pos p n Hp' H). lra. }
  split; [|split].
  - rewrite !map_map. apply map_ext. intros p. cbn [nmul nadd]. rewrite ndiv_fin by lra. reflexivity.
  - intros y Hy. apply in_map_iff in Hy as (p & <- & Hy). left. apply P. auto.
  - exists ((x * n + alpha) / (n + k * alpha)). split; [apply in_map_iff; eauto|apply P; lra].
Qed.

(** * Knots *)
Lemma last_snoc {A} (l : list A) a d : last (l ++ [a]) d = a.
Proof. apply last_last. Qed.
Lemma hd_app {A} (l m : list A) d : l <> [] -> hd d (l ++ m) = hd d l.
Proof. destruct l; simpl; congruence. Qed.
Lemma discrete_knots vals : vals <> [] -> increasing vals ->
  increasing ([hd 0 vals - 1] ++ vals ++ [last vals 0 + 1]).
Proof.
  intros Hv Hi. apply increasing_cons; [|apply increasing_snoc; auto; intros; lra]. intros _. rewrite hd_app by auto. lra.
Qed.
Lemma mids_nth edges i : (S i < length edges)%nat ->
  nth i (diff (fun b1 b0 => b0 + (b1 - b0) / 2) edges) 0 = (nth i edges 0 + nth (S i) edges 0) / 2.
Proof. intros H. rewrite (diff_nth _ edges i 0) by auto. field. Qed.
Lemma pl_eps_pos : 0 < pl_eps.
Proof. apply Rinv_0_lt_compat, pow_lt. lra. Qed.
Lemma continuous_knots edges : (2 <= length edges)%nat -> increasing edges ->
  increasing ([hd 0 edges - pl_eps] ++ diff (fun b1 b0 => b0 + (b1 - b0) / 2) edges ++ [last edges 0 + pl_eps]).
Proof.
  intros Hl Hi. set (m := diff _ edges). assert (Lm: length m = (length edges - 1)%nat) by apply diff_length.
  assert (Mn: m <> []) by (intros E; rewrite E in Lm; simpl in Lm; lia). pose proof pl_eps_pos as Pe.
  apply increasing_cons.
  - intros _. rewrite hd_app, !hd_nth by auto. unfold m. rewrite mids_nth by lia. pose proof (Hi 0%nat ltac:(lia)). lra.
  - apply increasing_snoc.
    + intros _. rewrite !last_nth, Lm. unfold m. rewrite mids_nth by lia. pose proof (Hi (length edges - 1 - 1)%nat ltac:(lia)) as P.
      replace (S (length edges - 1 - 1)) with (length edges - 1)%nat in * by lia. lra.
    + intros i H. rewrite Lm in H. unfold m. rewrite !mids_nth by lia. pose proof (Hi i ltac:(lia)). pose proof (Hi (S i) ltac:(lia)). lra.
Qed.

(** * initialize *)
(** The data of a cell determine a density: a discrete domain is increasing and, unless the cell has no data at all,
    some entry lies in the range of the bins; a continuous cell has data. *)
Definition usable (d : domain) (data : list R) : Prop :=
  match d with
  | Discrete vals => vals <> [] /\ increasing vals /\ (data = [] \/ exists x, In x data /\ hd 0 vals <= x <= last vals 0 + 1)
  | Continuous => data <> []
  end.
Lemma usable_breaks d data : usable d data -> exists breaks, pl_breaks d data = Ok breaks /\ (2 <= length breaks)%nat /\ increasing breaks /\
  exists r, heights (pl_densities d data breaks) r /\ length r = (length breaks - 1)%nat.
Proof.
  destruct d as [vals|]; cbn [usable].
  - intros (Hv & Hi & Hd). exists (vals ++ [last vals 0 + 1]). assert (Lv: (1 <= length vals)%nat) by (destruct vals; [congruence|simpl; lia]).
    split; [destruct vals; [congruence|reflexivity]|]. split; [rewrite app_length; simpl; lia|].
    assert (I: increasing (vals ++ [last vals 0 + 1])) by (apply increasing_snoc; auto; intros; lra). split; auto.
    destruct data as [|x0 data]; cbn [pl_densities].
    + exists (map (fun _ => 1 / INR (length vals)) vals). assert (P: 0 < INR (length vals)) by (apply lt_0_INR; lia).
      assert (Q: 0 < 1 / INR (length vals)) by (apply Rmult_lt_0_compat; [lra|apply Rinv_0_lt_compat; auto]).
      split; [|rewrite map_length, app_length; simpl; lia]. split; [rewrite map_map; reflexivity|]. split.
      * intros y Hy. apply in_map_iff in Hy as (? & <- & _). lra.
      * destruct vals as [|v vals]; [congruence|]. eexists. split; [left; reflexivity|auto].
    + destruct Hd as [|Hx]; [discriminate|]. destruct (histogram_heights (vals ++ [last vals 0 + 1]) (x0 :: data) I) as (r & Hr & Lr & _).
      * rewrite app_length; simpl; lia.
      * rewrite hd_app, last_snoc by auto. exact Hx.
      * exists r. auto.
  - intros Hd. destruct (C44_total (map Fin data) None) as ([edges [[f l] n]] & E).
    { intros v Hv. apply in_map_iff in Hv as (x & <- & _). eauto. }
    exists edges. unfold pl_breaks. rewrite E. cbn [bind]. split; auto. pose proof (C44_bins _ _ _ _ _ _ E) as (N & L & H0 & Hl & Hi & Hc).
    assert (Ln: (2 <= length edges)%nat) by (rewrite L; lia). split; auto.
    assert (I: increasing edges) by (intros i H; apply Hi; lia). split; auto.
    destruct data as [|x0 data]; [congruence|]. cbn [pl_densities].
    destruct (histogram_heights edges (x0 :: data) I Ln) as (r & Hr & Lr & _).
    + exists x0. split; [left; auto|]. destruct (Hc (Fin x0)) as (x & Ex & Hx); [left; auto|]. injection Ex as <-.
      rewrite hd_nth, H0, last_nth, L. replace (Z.to_nat n + 1 - 1)%nat with (Z.to_nat n) by lia. rewrite Hl. auto.
    + exists r. auto.
Qed.
Lemma knots_ok d data breaks : pl_breaks d data = Ok breaks -> (2 <= length breaks)%nat -> increasing breaks ->
  increasing (pl_knots d breaks) /\ length (pl_knots d breaks) = S (length breaks).
Proof.
  intros Hb Hl Hi. destruct d as [vals|]; cbn [pl_knots].
  - assert (E: breaks = vals ++ [last vals 0 + 1] /\ vals <> []) by (destruct vals; [discriminate|]; split; [injection Hb as <-; reflexivity|congruence]).
    destruct E as [-> Hv]. rewrite removelast_last. split.
    + apply discrete_knots; auto. intros i H. pose proof (Hi i) as P. rewrite app_length in P. cbn [length] in P. specialize (P ltac:(lia)).
      rewrite !app_nth1 in P by lia. auto.
    + rewrite !app_length. cbn [length]. lia.
  - split; [apply continuous_knots; auto|]. rewrite !app_length, diff_length. cbn [length]. lia.
Qed.

Lemma trap_scale xs ys c k : trap xs (map (fun y => y / c) ys) k = trap xs ys k / c.
Proof.
  unfold trap. transitivity (rsum k (fun i => (nth (S i) xs 0 - nth i xs 0) * ((nth (S i) ys 0 + nth i ys 0) / 2)) * / c); [|reflexivity]. rewrite <- rsum_scal_r. apply rsum_ext. intros i _.
  assert (N: forall j, nth j (map (fun y => y / c) ys) 0 = nth j ys 0 / c).
  { intros j. replace 0 with (0 / c) at 1 by (unfold Rdiv; ring). apply (map_nth (fun y => y / c)). }
  rewrite !N. unfold Rdiv. ring.
Qed.

(** The knots and heights of an initialized cell. *)
Lemma init_cell d alpha data : usable d data -> exists xs ys,
  pl_init d alpha data = Ok (xs, map Fin ys) /\ increasing xs /\ length ys = length xs /\ (3 <= length xs)%nat /\
  (forall i, 0 <= nth i ys 0) /\ nth 0 ys 0 = 0 /\ nth (length xs - 1) ys 0 = 0 /\ trap xs ys (length xs - 1) = 1.
Proof.
  intros U. destruct (usable_breaks d data U) as (breaks & Eb & Lb & Ib & r0 & H0 & L0).
  destruct (smooth_heights alpha data breaks _ r0 Lb H0) as (r & (Er & Pr & x & Hx & Px) & Lr).
  destruct (knots_ok d data breaks Eb Lb Ib) as [Ik Lk]. set (xs := pl_knots d breaks) in *.
  set (y := [0] ++ r ++ [0]).
  assert (Ey: [Fin 0] ++ pl_smooth alpha data breaks (pl_densities d data breaks) ++ [Fin 0] = map Fin y).
  { unfold y. rewrite !map_app, Er. reflexivity. }
  assert (Ly: length y = length xs) by (unfold y; rewrite !app_length; cbn [length]; lia).
  assert (Py: forall i, 0 <= nth i y 0).
  { intros i. destruct (le_lt_dec (length y) i); [rewrite nth_overflow by auto; lra|]. assert (In (nth i y 0) y) by (apply nth_In; auto).
    unfold y in H at 2. apply in_app_or in H as [[H|[]]|H]; [lra|]. apply in_app_or in H as [H|[H|[]]]; [auto|lra]. }
  destruct (In_nth r x 0 Hx) as (i & Hi & Ei).
  assert (PA: 0 < trap xs y (length xs - 1)).
  { apply (trap_pos xs y Ik Ly ltac:(lia) Py (S i)); [lia|]. unfold y. cbn [app nth]. rewrite app_nth1 by auto. rewrite Ei. auto. }
  exists xs, (map (fun a => a / trap xs y (length xs - 1)) y).
  assert (N: forall j, nth j (map (fun a => a / trap xs y (length xs - 1)) y) 0 = nth j y 0 / trap xs y (length xs - 1)).
  { intros j. set (A := trap xs y _). replace 0 with (0 / A) at 1 by (unfold Rdiv; ring). apply (map_nth (fun y => y / A)). }
  split; [|split; [auto|split; [rewrite map_length; auto|split; [lia|split; [|split; [|split]]]]]].
  - unfold pl_init. rewrite Eb. cbn [bind]. cbv zeta. rewrite Ey. fold xs. rewrite Er, !map_length.
    replace (length r + 1 =? length breaks)%nat with true by (symmetry; apply Nat.eqb_eq; lia). cbn [assert guard bind].
    rewrite Ly, Nat.eqb_refl. cbn [assert guard bind]. f_equal. f_equal. rewrite trapezoid_fin by (auto; lia). rewrite !map_map. apply map_ext.
    intros a. rewrite ndiv_fin by lra. reflexivity.
  - intros j. rewrite N. apply Rmult_le_pos; auto. left. apply Rinv_0_lt_compat. auto.
  - rewrite N. unfold y. cbn [app nth]. unfold Rdiv. ring.
  - rewrite N. replace (nth (length xs - 1) y 0) with 0; [unfold Rdiv; ring|]. unfold y. replace (length xs - 1)%nat with (S (length r)) by lia.
    cbn [app nth]. rewrite nth_middle. reflexivity.
  - rewrite trap_scale. field. lra.
Qed.
