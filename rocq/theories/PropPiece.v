(** Theorems about the piecewise linear leaf (C35, C36, C49, C50). *)
From Coq Require Import List Arith Lia Bool ZArith Reals Lra.
Import ListNotations.
From Verif Require Import Base RSum Num RefFwd Data PropData Piecewise RefPiecewise RefPiecewiseInit.
Local Open Scope R_scope.

(** * C35: interpolation *)
(** For increasing knots and non-negative heights of any number: finite and non-negative everywhere, through the knots,
    linear between neighbours, constant outside, and largest at the value mpe returns. *)
Theorem C35_interpolation : forall xs ys, increasing xs -> length ys = length xs -> (2 <= length xs)%nat -> (forall i, 0 <= nth i ys 0) ->
  exists f, (forall t, interp xs (map Fin ys) t = Fin (f t) /\ 0 <= f t) /\
    (forall k, (k < length xs)%nat -> f (nth k xs 0) = nth k ys 0) /\
    (forall k t, (S k < length xs)%nat -> nth k xs 0 <= t <= nth (S k) xs 0 ->
      (f t - nth k ys 0) * (nth (S k) xs 0 - nth k xs 0) = (nth (S k) ys 0 - nth k ys 0) * (t - nth k xs 0)) /\
    (forall t, t <= hd 0 xs -> f t = hd 0 ys) /\ (forall t, last xs 0 <= t -> f t = last ys 0) /\
    (forall t, f t <= f (pl_mpe xs (map Fin ys))) /\
    integral f (hd 0 xs) (last xs 0) (rsum (length xs - 1) (fun i => (nth (S i) xs 0 - nth i xs 0) * ((nth (S i) ys 0 + nth i ys 0) / 2))).
Proof.
  intros xs ys Hi Hl Hn Hp. exists (fun x => toR (interp xs (map Fin ys) x)).
  split; [intros; apply interp_f; auto|]. split; [intros; apply f_knot; auto|]. split; [|split; [|split; [|split]]].
  - intros k t Hk Ht. rewrite (f_line xs ys Hi Hl Hn Hp t k) by auto. unfold line. pose proof (Hi k Hk). field. lra.
  - intros t Ht. rewrite hd_nth in *. apply f_left; auto.
  - intros t [Ht|Ht]; rewrite last_nth in *.
    + rewrite Hl. apply f_right; auto.
    + subst t. rewrite Hl. apply f_knot; auto. lia.
  - apply f_max; auto.
  - rewrite hd_nth, last_nth. apply f_integral; auto. lia.
Qed.
Print Assumptions C35_interpolation.
Example C35_interpolation_ex : increasing [0; 1; 3] /\ interp [0; 1; 3] (map Fin [0; 2; 1]) 2 = Fin (3/2) /\ pl_mpe [0; 1; 3] (map Fin [0; 2; 1]) = 1.
Proof.
  assert (I: increasing [0; 1; 3]) by (intros [|[|[|i]]]; simpl; intros; try lia; lra). split; auto. split.
  - rewrite (interp_closed [0; 1; 3] [0; 2; 1] I eq_refl ltac:(simpl; lia) 2 1) by (simpl; try lia; lra).
    unfold line. simpl. f_equal. rewrite Rmax_left; lra.
  - unfold pl_mpe. simpl. unfold nargmax. simpl. destruct (Rlt_dec 0 2); [|lra]. unfold nltb. destruct (Rlt_dec 2 1); [lra|]. reflexivity.
Qed.

(** After initialize, for any data and any cluster assignment that gives the cell usable data, with or without smoothing:
    the interpolated function is a density with the stated mode. *)
Theorem C35_density : forall d alpha data, usable d data -> exists xs ys f, pl_init d alpha data = Ok (xs, ys) /\
  (forall t, interp xs ys t = Fin (f t) /\ 0 <= f t) /\
  (forall t, t <= hd 0 xs \/ last xs 0 <= t -> f t = 0) /\
  (forall k, (k < length xs)%nat -> nth k ys NaN = Fin (f (nth k xs 0))) /\
  integral f (hd 0 xs) (last xs 0) 1 /\
  (forall t, f t <= f (pl_mpe xs ys)).
Proof.
  intros d alpha data U. destruct (init_cell d alpha data U) as (xs & ys & E & Hi & Hl & Hn & Hp & H0 & H1 & HT).
  destruct (C35_interpolation xs ys Hi Hl ltac:(lia) Hp) as (f & A & B & _ & C & D & F & G).
  exists xs, (map Fin ys), f. split; auto. split; auto. split; [|split; [|split]]; auto.
  - intros t [Ht|Ht]; [rewrite C, hd_nth by auto; auto|rewrite D, last_nth, Hl by auto; auto].
  - intros k Hk. rewrite nth_map_Fin by lia. rewrite B by auto. reflexivity.
  - fold (trap xs ys (length xs - 1)) in G. rewrite HT in G. exact G.
Qed.
Print Assumptions C35_density.
Example C35_density_ex : usable Continuous [3; 1; 4; 1; 5] /\ usable (Discrete [0; 1; 2]) [1; 2; 2] /\ usable (Discrete [0; 1]) [].
Proof.
  split; [discriminate|]. split; (split; [discriminate|]); (split; [intros [|[|[|i]]]; simpl; intros; try lia; lra|]); [right|left; reflexivity].
  exists 1. split; [left; reflexivity|]. simpl. lra.
Qed.

(** A continuous cell whose cluster is empty: the density is NaN. *)
Theorem C35_empty_cluster_refuted : forall alpha, exists xs ys, pl_init Continuous alpha [] = Ok (xs, ys) /\ interp xs ys (1/2) = NaN.
Proof.
  intros alpha.
  assert (B: pl_breaks Continuous [] = Ok [0 + 0 * ((1 - 0) / 1); 0 + 1 * ((1 - 0) / 1)]).
  { unfold pl_breaks, bin_edges, outer_edges. cbn [map bind finite_of flat_map]. destruct (Req_EM_T 0 1); [lra|]. reflexivity. }
  replace (0 + 0 * ((1 - 0) / 1)) with 0 in B by field. replace (0 + 1 * ((1 - 0) / 1)) with 1 in B by field.
  assert (D: pl_smooth alpha [] [0; 1] (pl_densities Continuous [] [0; 1]) = [NaN]).
  { unfold pl_densities, histogram. cbn [length Nat.sub seq map counted within filter bin_count INR nth].
    assert (Q: ndiv (Fin 0) (Fin 0) = NaN) by (unfold ndiv; destruct (Req_EM_T 0 0); [|lra]; destruct (Rlt_dec 0 0); [lra|]; destruct (Rlt_dec 0 0); [lra|reflexivity]).
    unfold bin_count. cbn [counted within filter length INR]. rewrite Q. unfold pl_smooth. destruct (Rlt_dec 0 alpha); reflexivity. }
  unfold pl_init. rewrite B. cbn [bind]. cbv zeta. rewrite D. cbn [length Nat.add Nat.eqb assert guard bind pl_knots hd last diff zipw tl combine map app fst snd].
  do 2 eexists. split; [reflexivity|]. unfold trapezoid. cbn [length Nat.sub]. unfold nsum at 1.
  assert (P: 0 < pl_eps) by apply pl_eps_pos.
  unfold interp. cbn [search_left]. destruct (Rlt_dec (0 - pl_eps) (1/2)); [|lra]. destruct (Rlt_dec (0 + (1 - 0) / 2) (1/2)); [lra|].
  cbn [map diff zipw tl combine fst snd app nth removelast hd last]. cbn [ndiv nsub nneg nadd nmul clamp0 nltb]. reflexivity.
Qed.
Print Assumptions C35_empty_cluster_refuted.

(** What log_prob returns outside the knots is -300, not minus infinity, so the exponentials of the returned
    log-probabilities have unbounded total mass. *)
Theorem C35_floor_refuted : forall d alpha data, usable d data -> exists xs ys, pl_init d alpha data = Ok (xs, ys) /\
  (forall t, last xs 0 <= t -> pl_log_prob xs ys t = Fin (-300)) /\
  forall M, 0 < M -> exists b, last xs 0 < b /\ integral (fun t => pval (pl_log_prob xs ys t)) (last xs 0) b M.
Proof.
  intros d alpha data U. destruct (C35_density d alpha data U) as (xs & ys & f & E & A & B & _ & _ & _). exists xs, ys. split; auto.
  assert (F: forall t, last xs 0 <= t -> pl_log_prob xs ys t = Fin (-300)).
  { intros t Ht. unfold pl_log_prob. destruct (A t) as [-> _]. rewrite B by auto. rewrite nlog_zero. reflexivity. }
  split; auto. intros M HM. pose proof (exp_pos (-300)) as P. exists (last xs 0 + M / exp (-300)).
  assert (Q: 0 < M / exp (-300)) by (apply Rmult_lt_0_compat; [auto|apply Rinv_0_lt_compat; auto]). split; [lra|].
  apply (integral_ext _ (fun x => exp (-300) + 0 * x)); [lra| |].
  - intros x Hx. rewrite F by lra. cbn [pval]. ring.
  - destruct (line_integral (exp (-300)) 0 (last xs 0) (last xs 0 + M / exp (-300))) as [pr Hpr]; [lra|]. exists pr. rewrite Hpr. field. lra.
Qed.
Print Assumptions C35_floor_refuted.

(** ** Discrete domains *)
Definition unit_spaced (vals : list R) : Prop := forall i, (S i < length vals)%nat -> nth (S i) vals 0 = nth i vals 0 + 1.
Lemma unit_increasing vals : unit_spaced vals -> increasing vals.
Proof. intros H i Hi. rewrite H by auto. lra. Qed.
Lemma trap_unit xs ys : unit_spaced xs -> (1 <= length xs)%nat -> nth 0 ys 0 = 0 -> nth (length xs - 1) ys 0 = 0 ->
  trap xs ys (length xs - 1) = rsum (length xs) (fun i => nth i ys 0).
Proof.
  intros Hu Hn H0 H1. unfold trap. set (n := (length xs - 1)%nat) in *. replace (length xs) with (S n) by (unfold n; lia). rewrite rsum_S, H1.
  rewrite (rsum_ext n _ (fun i => 1/2 * nth (S i) ys 0 + 1/2 * nth i ys 0)) by (intros i Hi; rewrite Hu by (unfold n in Hi; lia); field).
  rewrite rsum_plus, !rsum_scal_l.
  assert (Q: rsum n (fun i => nth (S i) ys 0) + nth 0 ys 0 = rsum n (fun i => nth i ys 0) + nth n ys 0).
  { clearbody n. clear. induction n as [|n IH]; [rewrite !rsum_0; reflexivity|]. rewrite !rsum_S. lra. }
  rewrite H0, H1 in Q. lra.
Qed.
Lemma discrete_init vals alpha data xs ys : pl_init (Discrete vals) alpha data = Ok (xs, ys) -> vals <> [] /\ xs = [hd 0 vals - 1] ++ vals ++ [last vals 0 + 1].
Proof.
  intros H. unfold pl_init in H. apply bind_ok in H as (br & Hb & H). assert (Hv: vals <> []) by (destruct vals; discriminate || congruence). split; auto.
  assert (E: br = vals ++ [last vals 0 + 1]) by (destruct vals; [congruence|]; injection Hb as <-; reflexivity).
  cbv zeta in H. apply bind_ok in H as ([] & _ & H). apply bind_ok in H as ([] & _ & H). injection H as <- _. subst br.
  cbn [pl_knots]. rewrite removelast_last. reflexivity.
Qed.
Lemma unit_knots vals : vals <> [] -> unit_spaced vals -> unit_spaced ([hd 0 vals - 1] ++ vals ++ [last vals 0 + 1]).
Proof.
  intros Hv Hu i Hi. cbn [app] in *. cbn [length] in Hi. rewrite app_length in Hi. cbn [length] in Hi.
  assert (1 <= length vals)%nat by (destruct vals; [congruence|simpl; lia]).
  destruct i as [|i]; cbn [nth].
  - rewrite app_nth1 by lia. rewrite hd_nth. ring.
  - destruct (Nat.eq_dec (S i) (length vals)) as [E|N].
    + rewrite E, nth_middle, app_nth1, last_nth by lia. replace (length vals - 1)%nat with i by lia. reflexivity.
    + rewrite !app_nth1 by lia. apply Hu. lia.
Qed.
(** Consecutive values: the probabilities of the values sum to one. *)
Theorem C35_discrete_sum : forall vals alpha data, unit_spaced vals -> usable (Discrete vals) data ->
  exists xs ys f, pl_init (Discrete vals) alpha data = Ok (xs, ys) /\ (forall t, interp xs ys t = Fin (f t)) /\ lsum f vals = 1.
Proof.
  intros vals alpha data Hu U. destruct (init_cell _ alpha data U) as (xs & ys & E & Hi & Hl & Hn & Hp & H0 & H1 & HT).
  destruct (C35_interpolation xs ys Hi Hl ltac:(lia) Hp) as (f & A & B & _). exists xs, (map Fin ys), f. split; auto. split; [intros; apply A|].
  destruct (discrete_init _ _ _ _ _ E) as [Hv Ex].
  assert (Hx: unit_spaced xs) by (rewrite Ex; apply unit_knots; auto). rewrite trap_unit in HT by (auto; lia).
  rewrite (rsum_ext _ _ (fun i => f (nth i xs 0))) in HT by (intros i Hi'; symmetry; apply B; auto).
  assert (Q: rsum (length xs) (fun i => f (nth i xs 0)) = lsum f xs).
  { unfold rsum. rewrite <- (lsum_map (fun i => nth i xs 0) f). f_equal. clear. induction xs as [|x xs IH] using rev_ind; [reflexivity|].
    rewrite app_length. cbn [length]. rewrite Nat.add_1_r, seq_S, map_app. cbn [map]. rewrite Nat.add_0_l, nth_middle. f_equal. rewrite <- IH at 2.
    apply map_ext_in. intros i Hi. apply in_seq in Hi. apply app_nth1. lia. }
  rewrite Q in HT. rewrite Ex, !lsum_app in HT. cbn [lsum] in HT.
  assert (F0: f (hd 0 vals - 1) = 0) by (transitivity (nth 0 ys 0); [rewrite <- (B 0%nat) by lia; rewrite Ex; reflexivity|exact H0]).
  assert (F1: f (last vals 0 + 1) = 0). { transitivity (nth (length xs - 1) ys 0); [|exact H1]. rewrite <- B by lia. f_equal. rewrite <- last_nth, Ex, app_assoc. symmetry. apply last_snoc. }
  rewrite F0, F1 in HT. lra.
Qed.
Print Assumptions C35_discrete_sum.
(** Values with a gap: they do not. *)
Theorem C35_gap_refuted : exists xs ys f, pl_init (Discrete [0; 2]) 0 [] = Ok (xs, ys) /\ (forall t, interp xs ys t = Fin (f t)) /\ lsum f [0; 2] = 2/3.
Proof.
  assert (U: usable (Discrete [0; 2]) []) by (split; [discriminate|split; [intros [|[|i]]; simpl; intros; try lia; lra|left; reflexivity]]).
  destruct (init_cell _ 0 [] U) as (xs & ys & E & Hi & Hl & Hn & Hp & H0 & H1 & HT).
  destruct (C35_interpolation xs ys Hi Hl ltac:(lia) Hp) as (f & A & B & _). exists xs, (map Fin ys), f. split; auto. split; [intros; apply A|].
  assert (E2: pl_init (Discrete [0; 2]) 0 [] = Ok ([0 - 1; 0; 2; 2 + 1], map (fun a => a) (map Fin [0; 1/3; 1/3; 0]))).
  { unfold pl_init, pl_breaks. cbn [bind app last]. cbv zeta. unfold pl_smooth. destruct (Rlt_dec 0 0); [lra|].
    cbn [pl_densities map length Nat.add Nat.eqb assert guard bind app pl_knots removelast hd last]. unfold trapezoid, nsum. cbn [length Nat.sub seq fold_right map fold_left nth].
    f_equal. f_equal. cbn [nadd]. rewrite !ndiv_fin by lra. cbn [nmul nadd]. simpl (INR 2). rewrite !ndiv_fin by lra.
    replace (0 + (0 - (0 - 1)) * ((1 / (1 + 1) + 0) / 2) + (2 - 0) * ((1 / (1 + 1) + 1 / (1 + 1)) / 2) + (2 + 1 - 2) * ((0 + 1 / (1 + 1)) / 2)) with (3/2) by lra.
    replace (0 / (3/2)) with 0 by field. replace (1 / (1 + 1) / (3/2)) with (1/3) by field. reflexivity. }
  rewrite map_id, E in E2. injection E2 as Ex Ey. 
  assert (Y: ys = [0; 1/3; 1/3; 0]).
  { apply (f_equal (map toR)) in Ey. rewrite map_map in Ey. cbn [map toR] in Ey. rewrite map_id in Ey. exact Ey. }
  pose proof (B 1%nat ltac:(lia)) as B1. pose proof (B 2%nat ltac:(lia)) as B2. rewrite Ex, Y in B1, B2. cbn [nth] in B1, B2. cbn [lsum]. rewrite B1, B2. lra.
Qed.
Print Assumptions C35_gap_refuted.

(** Consecutive values, data from the domain, no smoothing: the probability of a value is its frequency. *)
Lemma search_right_at l i : increasing l -> (i < length l)%nat -> search_right (map Fin l) (nth i l 0) = S i.
Proof.
  intros Hi H. destruct (search_right_spec l (nth i l 0)) as (A & B & C). set (k := search_right _ _) in *.
  destruct (Nat.lt_trichotomy k (S i)) as [L|[E|L]]; auto; exfalso.
  - specialize (C ltac:(lia)). assert (nth k l 0 <= nth i l 0) by (apply increasing_le; auto; lia). lra.
  - specialize (B (S i) L). assert (nth i l 0 < nth (S i) l 0) by (apply Hi; lia). lra.
Qed.
Lemma sum_bins {A} (b : A -> nat) n l : (forall x, In x l -> (b x < n)%nat) -> rsum n (fun i => INR (length (filter (fun x => (b x =? i)%nat) l))) = INR (length l).
Proof.
  induction l as [|x l IH]; intros H; [rewrite (rsum_ext _ _ (fun _ => 0)) by (intros; reflexivity); apply rsum_zero|].
  rewrite (rsum_ext _ _ (fun i => (if (i =? b x)%nat then 1 else 0) * 1 + INR (length (filter (fun x => (b x =? i)%nat) l)))).
  - rewrite rsum_plus, rsum_indicator, IH by (auto with datatypes). cbn [length]. rewrite S_INR. ring.
  - intros i _. cbn [filter]. rewrite (Nat.eqb_sym i). destruct (b x =? i)%nat; cbn [length]; [rewrite S_INR|]; ring.
Qed.
Theorem C35_frequencies : forall vals alpha data, vals <> [] -> unit_spaced vals -> data <> [] -> (forall x, In x data -> In x vals) -> alpha <= 0 ->
  exists xs ys f, pl_init (Discrete vals) alpha data = Ok (xs, ys) /\ (forall t, interp xs ys t = Fin (f t)) /\
    forall v, In v vals -> f v = INR (count_occ Req_EM_T data v) / INR (length data).
Proof.
  intros vals alpha data Hv Hu Hd Hin Ha.
  assert (I: increasing vals) by (apply unit_increasing; auto).
  assert (Lv: (1 <= length vals)%nat) by (destruct vals; [congruence|simpl; lia]).
  assert (R: forall x, In x vals -> hd 0 vals <= x <= last vals 0).
  { intros x Hx. destruct (In_nth vals x 0 Hx) as (i & Hi & <-). rewrite hd_nth, last_nth. split; apply increasing_le; auto; lia. }
  assert (U: usable (Discrete vals) data).
  { split; auto. split; auto. right. destruct data as [|x data]; [congruence|]. exists x. split; [left; auto|]. pose proof (R x (Hin x (or_introl eq_refl))). lra. }
  set (br := vals ++ [last vals 0 + 1]).
  assert (Lb: length br = S (length vals)) by (unfold br; rewrite app_length; simpl; lia).
  assert (Ib: increasing br) by (apply increasing_snoc; auto; intros; lra).
  assert (Nb: forall i, (i < length vals)%nat -> nth i br 0 = nth i vals 0) by (intros i Hi; apply app_nth1; auto).
  assert (C: counted br data = data).
  { unfold counted, within. rewrite (proj2 (forallb_filter_id _ _)) || idtac.
    assert (G: forall l, (forall x, In x l -> hd 0 br <= x <= last br 0) -> filter (fun x => if Rle_dec (hd 0 br) x then if Rle_dec x (last br 0) then true else false else false) l = l).
    { induction l as [|x l IH]; intros H; auto. cbn [filter]. pose proof (H x (or_introl eq_refl)). destruct (Rle_dec (hd 0 br) x); [|lra]. destruct (Rle_dec x (last br 0)); [|lra].
      f_equal. apply IH. intros y Hy. apply H. right. auto. }
    apply G. intros x Hx. unfold br. rewrite hd_app, last_snoc by auto. pose proof (R x (Hin x Hx)). lra. }
  assert (Bn: forall i, (i < length vals)%nat -> bin_of br (nth i vals 0) = i).
  { intros i Hi. unfold bin_of. rewrite <- Nb by auto. rewrite search_right_at by (auto; lia). lia. }
  assert (BC: forall i, (i < length vals)%nat -> bin_count br data i = count_occ Req_EM_T data (nth i vals 0)).
  { intros i Hi. unfold bin_count. rewrite C. clear - Hi Hin Bn I. induction data as [|x data IH]; auto.
    cbn [filter count_occ]. assert (Hx: In x vals) by (apply Hin; left; auto). destruct (In_nth vals x 0 Hx) as (j & Hj & <-). rewrite Bn by auto.
    specialize (IH (fun y Hy => Hin y (or_intror Hy))). destruct (Req_EM_T (nth j vals 0) (nth i vals 0)) as [E|N].
    - assert (j = i). { destruct (Nat.lt_trichotomy j i) as [L|[|L]]; auto; exfalso; [pose proof (increasing_lt vals j i I ltac:(lia))|pose proof (increasing_lt vals i j I ltac:(lia))]; lra. }
      subst j. rewrite Nat.eqb_refl. cbn [length]. f_equal. exact IH.
    - destruct (Nat.eqb_spec j i) as [->|]; [congruence|]. exact IH. }
  destruct (histogram_heights br data Ib ltac:(lia)) as (r & (Er & Pr & _) & Lr & Nr).
  { destruct data as [|x data]; [congruence|]. exists x. split; [left; auto|]. unfold br. rewrite hd_app, last_snoc by auto. pose proof (R x (Hin x (or_introl eq_refl))). lra. }
  assert (PN: 0 < INR (length data)) by (apply lt_0_INR; destruct data; [congruence|simpl; lia]).
  assert (Nr': forall i, (i < length vals)%nat -> nth i r 0 = INR (bin_count br data i) / INR (length data)).
  { intros i Hi. rewrite Nr, C by lia. replace (nth (S i) br 0 - nth i br 0) with 1; [field; lra|].
    destruct (Nat.eq_dec (S i) (length vals)) as [E|N].
    - rewrite (Nb i) by auto. unfold br. rewrite E, nth_middle, last_nth. replace (length vals - 1)%nat with i by lia. ring.
    - rewrite !Nb by lia. rewrite Hu by lia. ring. }
  destruct (init_cell _ alpha data U) as (xs & ys & E & Hi & Hl & Hn & Hp & H0 & H1 & HT).
  destruct (C35_interpolation xs ys Hi Hl ltac:(lia) Hp) as (f & A & B & _). exists xs, (map Fin ys), f. split; auto. split; [intros; apply A|].
  destruct (discrete_init _ _ _ _ _ E) as [_ Ex].
  (* the heights before normalization already have area one *)
  set (y := [0] ++ r ++ [0]).
  assert (Ux: unit_spaced xs) by (rewrite Ex; apply unit_knots; auto).
  assert (Lx: length xs = S (S (length vals))) by (rewrite Ex, !app_length; cbn [length]; lia).
  assert (T: trap xs y (length xs - 1) = 1).
  { rewrite trap_unit; auto; [|lia|].
    - rewrite Lx, rsum_S. replace (nth (S (length vals)) y 0) with 0.
      + change (S (length vals)) with (1 + length vals)%nat. rewrite rsum_add, rsum_S, rsum_0. cbn [nth y app].
        rewrite (rsum_ext _ _ (fun i => INR (bin_count br data i) * / INR (length data))).
        * rewrite rsum_scal_r. unfold bin_count. rewrite C. rewrite sum_bins; [field; lra|]. intros x Hx. pose proof (bin_lt br ltac:(lia) x). lia.
        * intros i Hi'. cbn [Nat.add nth]. rewrite app_nth1 by lia. apply Nr'. auto.
      + unfold y. cbn [app nth]. replace (length vals) with (length r) by lia. rewrite nth_middle. reflexivity.
    - rewrite Lx. unfold y. cbn [Nat.sub app nth]. replace (length vals) with (length r) by lia. rewrite nth_middle. reflexivity. }
  assert (Y: ys = y).
  { unfold pl_init in E. assert (Eb: pl_breaks (Discrete vals) data = Ok br) by (destruct vals; [congruence|reflexivity]).
    rewrite Eb in E. cbn [bind] in E. cbv zeta in E. apply bind_ok in E as ([] & _ & E). apply bind_ok in E as ([] & _ & E). match type of E with Ok (?a, ?b) = Ok (?c, ?d) => assert (Ek: a = c) by congruence; assert (Ey: b = d) by congruence end.
    rewrite Ek in Ey. assert (D: pl_densities (Discrete vals) data br = map Fin r) by (destruct data; [congruence|exact Er]). rewrite D in Ey.
    unfold pl_smooth in Ey. destruct (Rlt_dec 0 alpha); [lra|].
    replace ([Fin 0] ++ map Fin r ++ [Fin 0]) with (map Fin y) in Ey by (unfold y; rewrite !map_app; reflexivity).
    rewrite (trapezoid_fin xs y) in Ey; auto; [|unfold y; rewrite !app_length; cbn [length]; lia|lia]. rewrite T in Ey.
    rewrite map_map in Ey. apply (f_equal (map toR)) in Ey. rewrite !map_map in Ey. cbn [toR] in Ey. rewrite map_id in Ey. rewrite <- Ey.
    rewrite <- (map_id y) at 2. apply map_ext. intros a. rewrite ndiv_fin by lra. cbn [toR]. field. }
  intros v Hvv. destruct (In_nth vals v 0 Hvv) as (i & Hi' & <-).
  pose proof (B (S i) ltac:(lia)) as Q. rewrite Ex in Q. cbn [app nth] in Q. rewrite app_nth1 in Q by auto. rewrite Q, Y. unfold y. cbn [app nth].
  rewrite app_nth1 by lia. rewrite Nr', BC by auto. reflexivity.
Qed.
Print Assumptions C35_frequencies.
Example C35_frequencies_ex : unit_spaced [0; 1; 2] /\ forall x, In x [1; 1; 2] -> In x [0; 1; 2].
Proof. split; [intros [|[|[|i]]]; simpl; intros; try lia; lra|simpl; tauto]. Qed.

(** * C36: samples *)
(** Continuous: for every random number in [0, 1) the sample lies between two neighbouring knots. *)
Theorem C36_continuous : forall d alpha data u, usable d data -> 0 <= u < 1 ->
  exists xs ys t, pl_init d alpha data = Ok (xs, ys) /\ pl_sample_continuous xs ys u = Fin t /\ hd 0 xs <= t <= last xs 0.
Proof.
  intros d alpha data u U Hu. destruct (init_cell d alpha data U) as (xs & ys & E & Hi & Hl & Hn & Hp & H0 & H1 & HT).
  destruct (sample_range xs ys Hi Hl ltac:(lia) ltac:(lra) u Hu) as (k & t & Hk & Et & Ht). exists xs, (map Fin ys), t. split; auto. split; auto.
  rewrite hd_nth, last_nth. pose proof (increasing_le xs 0 k Hi ltac:(lia)). pose proof (increasing_le xs (S k) (length xs - 1) Hi ltac:(lia)). lra.
Qed.
Print Assumptions C36_continuous.
(** Discrete: the sample is a position.  It is the value at that position when the domain is 0, 1, ..., n-1. *)
Theorem C36_discrete_partial : forall vals k, (forall i, (i < length vals)%nat -> nth i vals 0 = INR i) -> (k < length vals)%nat ->
  In (pl_sample_discrete k) vals /\ pl_sample_discrete k = nth k vals 0.
Proof. intros vals k H Hk. unfold pl_sample_discrete. rewrite H by auto. split; auto. rewrite <- H by auto. apply nth_In. auto. Qed.
Print Assumptions C36_discrete_partial.
Example C36_discrete_ex : forall i, (i < length [0; 1; 2])%nat -> nth i [0; 1; 2] 0 = INR i.
Proof. intros [|[|[|i]]] H; simpl in *; try lia; lra. Qed.
(** Any other increasing domain: some position of positive probability is not a value, e.g. for the values 1 and 2. *)
Theorem C36_discrete_refuted : exists xs ys p, pl_init (Discrete [1; 2]) 0 [] = Ok (xs, ys) /\
  pl_discrete_prob ys 0 = Fin p /\ 0 < p /\ ~ In (pl_sample_discrete 0) [1; 2].
Proof.
  assert (U: usable (Discrete [1; 2]) []) by (split; [discriminate|split; [intros [|[|i]]; simpl; intros; try lia; lra|left; reflexivity]]).
  destruct (C35_discrete_sum [1; 2] 0 []) as (xs & ys & f & E & A & Q); auto.
  { intros [|[|i]]; simpl; intros; try lia; lra. }
  assert (E2: exists c, c <> 0 /\ pl_init (Discrete [1; 2]) 0 [] = Ok ([1 - 1; 1; 2; 2 + 1], map Fin [0; 1/2/c; 1/2/c; 0])).
  { exists 1. split; [lra|]. unfold pl_init, pl_breaks. cbn [bind app last]. cbv zeta. unfold pl_smooth. destruct (Rlt_dec 0 0); [lra|].
    cbn [pl_densities map length Nat.add Nat.eqb assert guard bind app pl_knots removelast hd last]. unfold trapezoid, nsum. cbn [length Nat.sub seq fold_right map fold_left nth].
    f_equal. f_equal. cbn [nadd]. rewrite !ndiv_fin by lra. cbn [nmul nadd]. simpl (INR 2). rewrite !ndiv_fin by lra.
    match goal with |- context [0 / ?x] => replace x with 1 by lra end. replace (0 / 1) with 0 by field. replace (1 / (1 + 1) / 1) with (1 / 2 / 1) by field. reflexivity. }
  destruct E2 as (c & Hc & E2). exists [1 - 1; 1; 2; 2 + 1], (map Fin [0; 1/2/c; 1/2/c; 0]), (1/2). split; auto. split; [|split; [lra|]].
  - unfold pl_discrete_prob. cbn [map tl removelast length nsum seq nth]. unfold nsum. cbn [seq fold_left nth map nadd].
    rewrite ndiv_fin. { f_equal. field. auto. } replace (0 + 1 / 2 / c + 1 / 2 / c) with (/ c) by (field; auto). apply Rinv_neq_0_compat. auto.
  - unfold pl_sample_discrete. simpl. lra.
Qed.
Print Assumptions C36_discrete_refuted.

(** * C49: distribution of the samples *)
(** Continuous: every segment between neighbouring knots receives exactly the random numbers that its mass asks for. *)
Theorem C49_segments_partial : forall d alpha data, usable d data -> exists xs ys f, pl_init d alpha data = Ok (xs, ys) /\
  (forall t, interp xs ys t = Fin (f t)) /\
  forall u, 0 <= u < 1 -> exists k t a b, (S k < length xs)%nat /\ pl_sample_continuous xs ys u = Fin t /\ nth k xs 0 <= t <= nth (S k) xs 0 /\
    integral f (hd 0 xs) (nth k xs 0) a /\ integral f (hd 0 xs) (nth (S k) xs 0) b /\ a <= u < b.
Proof.
  intros d alpha data U. destruct (init_cell d alpha data U) as (xs & ys & E & Hi & Hl & Hn & Hp & H0 & H1 & HT).
  exists xs, (map Fin ys), (fun x => toR (interp xs (map Fin ys) x)). split; auto. split; [intros; apply interp_f; auto; lia|]. intros u Hu.
  assert (HA: 0 < trap xs ys (length xs - 1)) by lra.
  destruct (sample_value xs ys Hl ltac:(lia) HA u Hu) as (k & Hk & Hr & Es).
  pose proof (sample_in xs ys Hi u k Hk Hr) as Ht.
  exists k. eexists. exists (trap xs ys k), (trap xs ys (S k)). split; auto. split; [exact Es|]. split; [auto|].
  rewrite hd_nth. split; [apply f_integral; auto; lia|]. split; [apply f_integral; auto; lia|].
  rewrite !rcdf_nth in Hr by lia. rewrite HT in Hr. unfold Rdiv in Hr. rewrite Rinv_1, !Rmult_1_r in Hr. auto.
Qed.
Print Assumptions C49_segments_partial.
(** Inside a segment the samples are spread evenly although the density is not even: under the triangle through
    (0,0), (1,1), (2,0) the interval [0, 1/2] has mass 1/8, but every random number up to 1/4 gives a sample in it. *)
Theorem C49_inside_refuted : exists f, (forall t, interp [0; 1; 2] (map Fin [0; 1; 0]) t = Fin (f t)) /\ integral f 0 2 1 /\ integral f 0 (1/2) (1/8) /\
  forall u, 0 <= u <= 1/4 -> exists t, pl_sample_continuous [0; 1; 2] (map Fin [0; 1; 0]) u = Fin t /\ 0 <= t <= 1/2.
Proof.
  set (xs := [0; 1; 2]). set (ys := [0; 1; 0]).
  assert (I: increasing xs) by (intros [|[|[|i]]]; simpl; intros; try lia; lra).
  assert (P: forall i, 0 <= nth i ys 0) by (intros [|[|[|i]]]; simpl; try lra; destruct i; lra).
  assert (T: forall k, trap xs ys k = rsum k (fun i => (nth (S i) xs 0 - nth i xs 0) * ((nth (S i) ys 0 + nth i ys 0) / 2))) by reflexivity.
  assert (T1: trap xs ys 1 = 1/2) by (rewrite T, rsum_S, rsum_0; simpl; lra).
  assert (T2: trap xs ys 2 = 1) by (rewrite T, !rsum_S, rsum_0; simpl; lra).
  exists (fun x => toR (interp xs (map Fin ys) x)). split; [intros; apply interp_f; auto; simpl; lia|]. split; [|split].
  - rewrite <- T2. apply (f_integral xs ys I eq_refl ltac:(simpl; lia) P 2). simpl. lia.
  - apply (integral_ext _ (fun x => 0 + 1 * x)); [lra| |].
    + intros x Hx. rewrite (f_line xs ys I eq_refl ltac:(simpl; lia) P x 0) by (simpl; try lia; lra). unfold line. simpl. field.
    + destruct (line_integral 0 1 0 (1/2)) as [pr Hpr]; [lra|]. exists pr. rewrite Hpr. lra.
  - intros u Hu. destruct (sample_value xs ys eq_refl ltac:(simpl; lia) ltac:(simpl length; simpl Nat.sub; rewrite T2; lra) u ltac:(lra)) as (k & Hk & Hr & Es).
    rewrite !rcdf_nth in Hr by (simpl length in *; lia). change (length xs - 1)%nat with 2%nat in Hr. rewrite T2 in Hr.
    destruct k as [|[|k]]; [| |simpl length in Hk; lia]; [|rewrite T1 in Hr; lra].
    rewrite Es. eexists. split; [reflexivity|]. rewrite !rcdf_nth by (simpl length; lia). change (length xs - 1)%nat with 2%nat. rewrite T2, T1.
    replace (trap xs ys 0) with 0 by (rewrite T, rsum_0; reflexivity). simpl nth.
    assert (Pe: 0 < / 10 ^ 8) by (apply Rinv_0_lt_compat, pow_lt; lra). set (e := / 10 ^ 8) in *.
    replace (0 + (1 - 0) / (1 / 2 / 1 - 0 / 1 + e) * (u - 0 / 1)) with (u / (1/2 + e)) by (field; lra).
    split; [apply Rmult_le_pos; [lra|left; apply Rinv_0_lt_compat; lra]|].
    apply Rmult_le_reg_r with (1/2 + e); [lra|]. unfold Rdiv at 1. rewrite Rmult_assoc, Rinv_l by lra. nra.
Qed.
Print Assumptions C49_inside_refuted.
(** Discrete with consecutive values: position k is drawn with the probability of the k-th value. *)
Theorem C49_discrete : forall vals alpha data, unit_spaced vals -> usable (Discrete vals) data ->
  exists xs ys f, pl_init (Discrete vals) alpha data = Ok (xs, ys) /\ (forall t, interp xs ys t = Fin (f t)) /\
  forall k, (k < length vals)%nat -> pl_discrete_prob ys k = Fin (f (nth k vals 0)).
Proof.
  intros vals alpha data Hu U. destruct (C35_discrete_sum vals alpha data Hu U) as (xs0 & ys0 & f & E0 & A & SS).
  destruct (init_cell _ alpha data U) as (xs & ys & E & Hi & Hl & Hn & Hp & H0 & H1 & HT).
  rewrite E in E0. injection E0 as <- <-. exists xs, (map Fin ys), f. split; auto. split; auto. intros k Hk.
  destruct (discrete_init _ _ _ _ _ E) as [Hv Ex]. assert (Lx: length xs = (length vals + 2)%nat) by (rewrite Ex, !app_length; cbn [length]; lia).
  assert (K: forall i, (i < length vals)%nat -> nth i (removelast (tl (map Fin ys))) NaN = Fin (f (nth i vals 0))).
  { intros i Hi'. rewrite nth_removelast by (rewrite tl_length, map_length; lia). rewrite nth_tl, nth_map_Fin by lia.
    pose proof (interp_knot xs ys Hi Hl ltac:(lia) (S i) ltac:(lia)) as Q. rewrite A in Q. injection Q as Q. rewrite Rmax_left in Q by apply Hp. rewrite <- Q.
    rewrite Ex. cbn [app nth]. rewrite app_nth1 by auto. reflexivity. }
  unfold pl_discrete_prob. rewrite removelast_len, tl_length, map_length, Hl, Lx. replace (length vals + 2 - 1 - 1)%nat with (length vals) by lia.
  rewrite (nsum_fin _ _ (fun i => f (nth i vals 0))) by auto. rewrite K by auto.
  assert (Q: rsum (length vals) (fun i => f (nth i vals 0)) = 1).
  { rewrite <- SS. unfold rsum. rewrite <- (lsum_map (fun i => nth i vals 0) f). f_equal. clear. induction vals as [|x vals IH] using rev_ind; [reflexivity|].
    rewrite app_length. cbn [length]. rewrite Nat.add_1_r, seq_S, map_app. cbn [map]. rewrite Nat.add_0_l, nth_middle. f_equal. rewrite <- IH at 2.
    apply map_ext_in. intros i Hi. apply in_seq in Hi. apply app_nth1. lia. }
  rewrite Q, ndiv_fin by lra. f_equal. field.
Qed.
Print Assumptions C49_discrete.

(** * C50: mixture weights *)
Lemma bincount_len pred : pred <> [] -> length (bincount pred) = S (list_max pred).
Proof. intros H. unfold bincount. rewrite map_length, seq_length. destruct pred; [congruence|reflexivity]. Qed.
Lemma filter_eqb_occ k pred : length (filter (Nat.eqb k) pred) = count_occ Nat.eq_dec pred k.
Proof. induction pred as [|x l IH]; auto. cbn [filter count_occ]. destruct (Nat.eqb_spec k x), (Nat.eq_dec x k); cbn [length]; congruence. Qed.
Lemma bincount_nth pred k : (k < length (bincount pred))%nat -> nth k (bincount pred) 0%nat = count_occ Nat.eq_dec pred k.
Proof.
  intros H. unfold bincount in *. rewrite map_length, seq_length in H. set (n := match pred with [] => _ | _ => _ end) in *.
  rewrite (nth_indep _ 0%nat (length (filter (Nat.eqb 0) pred))) by (rewrite map_length, seq_length; auto).
  rewrite (map_nth (fun k => length (filter (Nat.eqb k) pred))), seq_nth by auto. apply filter_eqb_occ.
Qed.
Lemma bincount_sum pred : list_sum (bincount pred) = length pred.
Proof.
  destruct pred as [|x l]; auto. set (pred := x :: l) in *. assert (B: forall y, In y pred -> (y < S (list_max pred))%nat).
  { intros y Hy. pose proof (proj1 (list_max_le pred (list_max pred)) (le_n _)) as F. rewrite Forall_forall in F. specialize (F y Hy). lia. }
  unfold bincount. change (match pred with [] => 0%nat | _ => S (list_max pred) end) with (S (list_max pred)). set (n := S (list_max pred)) in *. clearbody n pred.
  induction pred as [|y m IH]; [cbn [filter length]; induction (seq 0 n); simpl; auto|].
  assert (Hy: (y < n)%nat) by (apply B; left; auto).
  assert (G: forall s, NoDup s -> list_sum (map (fun k => length (filter (Nat.eqb k) (y :: m))) s) = (list_sum (map (fun k => length (filter (Nat.eqb k) m)) s) + (if in_dec Nat.eq_dec y s then 1 else 0))%nat).
  { induction s as [|k s IHs]; intros Hs; [reflexivity|]. inversion Hs; subst. cbn [map list_sum fold_right]. fold (list_sum (map (fun k => length (filter (Nat.eqb k) (y :: m))) s)).
    fold (list_sum (map (fun k => length (filter (Nat.eqb k) m)) s)). rewrite IHs by auto. cbn [filter]. destruct (Nat.eqb_spec k y) as [->|N]; cbn [length].
    - destruct (in_dec Nat.eq_dec y s); [contradiction|]. destruct (in_dec Nat.eq_dec y (y :: s)) as [|N']; [lia|exfalso; apply N'; left; auto].
    - destruct (in_dec Nat.eq_dec y s), (in_dec Nat.eq_dec y (k :: s)) as [i'|i']; try lia; exfalso; [apply i'; right; auto|destruct i'; [congruence|contradiction]]. }
  rewrite G by apply seq_NoDup. rewrite IH by (intros; apply B; right; auto). destruct (in_dec Nat.eq_dec y (seq 0 n)) as [|N]; [cbn [length]; lia|].
  exfalso. apply N. apply in_seq. lia.
Qed.
(** The weights are the cluster frequencies when the cluster with the largest number has data. *)
Theorem C50_weights_partial : forall L pred, (forall p, In p pred -> (p < L)%nat) -> In (L - 1)%nat pred ->
  exists w, pl_mixture_weights L pred = Ok w /\ length w = L /\ forall k, (k < L)%nat -> nth k w 0 = INR (count_occ Nat.eq_dec pred k) / INR (length pred).
Proof.
  intros L pred HL Hl. assert (Hp: pred <> []) by (intros ->; contradiction).
  assert (HM: S (list_max pred) = L).
  { assert (list_max pred <= L - 1)%nat by (apply list_max_le, Forall_forall; intros p Hp'; specialize (HL p Hp'); lia).
    pose proof (proj1 (list_max_le pred (list_max pred)) (le_n _)) as F. rewrite Forall_forall in F. specialize (F _ Hl). specialize (HL _ Hl). lia. }
  unfold pl_mixture_weights. cbv zeta. rewrite map_length, bincount_len, HM, Nat.eqb_refl by auto. eexists. split; [reflexivity|].
  split; [rewrite map_length, bincount_len; auto|]. intros k Hk.
  rewrite bincount_sum. set (g := fun n => _). rewrite (nth_indep _ 0 (g 0%nat)) by (rewrite map_length, bincount_len, HM; auto).
  rewrite map_nth, bincount_nth by (rewrite bincount_len, HM; auto). reflexivity.
Qed.
Print Assumptions C50_weights_partial.
Example C50_ex : exists w, pl_mixture_weights 3 [0; 2; 2; 1]%nat = Ok w /\ nth 2 w 0 = 1/2.
Proof.
  destruct (C50_weights_partial 3 [0; 2; 2; 1]%nat) as (w & E & _ & H); [simpl; intros; lia|simpl; tauto|]. exists w. split; auto. rewrite H by lia. simpl. lra.
Qed.
(** All rows in the first of two clusters: both weights are one.  Last cluster empty otherwise: initialize raises. *)
Theorem C50_first_only_refuted : pl_mixture_weights 2 [0; 0]%nat = Ok [1; 1].
Proof. unfold pl_mixture_weights. simpl. repeat f_equal; lra. Qed.
Print Assumptions C50_first_only_refuted.
Theorem C50_empty_last_raises : forall L pred, (2 <= S (list_max pred) < L)%nat -> pred <> [] -> pl_mixture_weights L pred = Err RuntimeErr.
Proof.
  intros L pred H Hp. unfold pl_mixture_weights. cbv zeta. rewrite map_length, bincount_len by auto.
  destruct (Nat.eqb_spec (S (list_max pred)) L); [lia|]. destruct (Nat.eqb_spec (S (list_max pred)) 1); [lia|]. reflexivity.
Qed.
Print Assumptions C50_empty_last_raises.
