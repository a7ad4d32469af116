(** C66: networks over PiecewiseLinear leaves of a discrete domain. *)
From Coq Require Import List Arith Lia Bool ZArith Reals Lra FunctionalExtensionality.
Import ListNotations.
From Verif Require Import Base RSum Num Tensor Prob Layers Leaf Data RefFwd RefLeaf RefLeafS Circuit Net Piecewise RefPiecewise RefPiecewiseInit PieceLeaf Einet RefEinet RefEinetS Build RefBuild Spec RefSpec RefSpecS RefPack RefDensity Ex PropData PropPiece PropForward PropSample.
Local Open Scope R_scope.

(** * The probabilities that initialize stores *)
Lemma init_values vals alpha data r : vals <> [] -> unit_spaced vals -> usable (Discrete vals) data ->
  pl_smooth alpha data (vals ++ [last vals 0 + 1]) (pl_densities (Discrete vals) data (vals ++ [last vals 0 + 1])) = map Fin r ->
  length r = length vals -> rsum (length vals) (fun i => nth i r 0) = 1 ->
  exists xs ys f, pl_init (Discrete vals) alpha data = Ok (xs, ys) /\ (forall t, interp xs ys t = Fin (f t) /\ 0 <= f t) /\
    (forall i, (i < length vals)%nat -> f (nth i vals 0) = nth i r 0) /\ ys = map Fin ([0] ++ r ++ [0]).
Proof.
  intros Hv Hu U Er Lr Sr. set (br := vals ++ [last vals 0 + 1]) in *.
  assert (Lv: (1 <= length vals)%nat) by (destruct vals; [congruence|simpl; lia]).
  destruct (init_cell _ alpha data U) as (xs & ys & E & Hi & Hl & Hn & Hp & H0 & H1 & HT).
  destruct (C35_interpolation xs ys Hi Hl ltac:(lia) Hp) as (f & A & B & _).
  destruct (discrete_init _ _ _ _ _ E) as [_ Ex].
  set (y := [0] ++ r ++ [0]).
  assert (Ux: unit_spaced xs) by (rewrite Ex; apply unit_knots; auto).
  assert (Lx: length xs = S (S (length vals))) by (rewrite Ex, !app_length; cbn [length]; lia).
  assert (T: trap xs y (length xs - 1) = 1).
  { rewrite trap_unit; auto; [|lia|].
    - rewrite Lx, rsum_S. replace (nth (S (length vals)) y 0) with 0.
      + change (S (length vals)) with (1 + length vals)%nat. rewrite rsum_add, rsum_S, rsum_0. cbn [nth y app].
        rewrite (rsum_ext _ _ (fun i => nth i r 0)); [rewrite Sr; ring|].
        intros i Hi'. cbn [Nat.add nth]. rewrite app_nth1 by lia. reflexivity.
      + unfold y. cbn [app nth]. rewrite <- Lr, nth_middle. reflexivity.
    - rewrite Lx. unfold y. cbn [Nat.sub app nth]. rewrite <- Lr, nth_middle. reflexivity. }
  assert (Y: ys = y).
  { unfold pl_init in E. assert (Eb: pl_breaks (Discrete vals) data = Ok br) by (destruct vals; [congruence|reflexivity]).
    rewrite Eb in E. cbn [bind] in E. cbv zeta in E. apply bind_ok in E as ([] & _ & E). apply bind_ok in E as ([] & _ & E).
    match type of E with Ok (?a, ?b) = Ok (?c, ?d) => assert (Ek: a = c) by congruence; assert (Ey: b = d) by congruence end.
    rewrite Ek, Er in Ey.
    replace ([Fin 0] ++ map Fin r ++ [Fin 0]) with (map Fin y) in Ey by (unfold y; rewrite !map_app; reflexivity).
    rewrite (trapezoid_fin xs y) in Ey; auto; [|unfold y; rewrite !app_length; cbn [length]; lia|lia]. rewrite T in Ey.
    rewrite map_map in Ey. apply (f_equal (map toR)) in Ey. rewrite !map_map in Ey. cbn [toR] in Ey. rewrite map_id in Ey. rewrite <- Ey.
    rewrite <- (map_id y) at 2. apply map_ext. intros a. rewrite ndiv_fin by lra. cbn [toR]. field. }
  exists xs, (map Fin ys), f. split; auto. split; [exact A|]. split; [|rewrite Y; reflexivity].
  intros i Hi'. pose proof (B (S i) ltac:(lia)) as Q. rewrite Ex in Q. cbn [app nth] in Q. rewrite app_nth1 in Q by auto. rewrite Q, Y. unfold y. cbn [app nth].
  apply app_nth1. lia.
Qed.
Lemma map_nth_R (h : R -> R) l i : (i < length l)%nat -> nth i (map h l) 0 = h (nth i l 0).
Proof. intros H. rewrite (nth_indep _ 0 (h 0)) by (rewrite map_length; auto). apply map_nth. Qed.
Lemma frequencies vals data : vals <> [] -> unit_spaced vals -> data <> [] -> (forall x, In x data -> In x vals) ->
  exists r, pl_densities (Discrete vals) data (vals ++ [last vals 0 + 1]) = map Fin r /\ length r = length vals /\
    (forall i, (i < length vals)%nat -> nth i r 0 = INR (count_occ Req_EM_T data (nth i vals 0)) / INR (length data)) /\
    rsum (length vals) (fun i => nth i r 0) = 1.
Proof.
  intros Hv Hu Hd Hin.
  assert (I: increasing vals) by (apply unit_increasing; auto).
  assert (Lv: (1 <= length vals)%nat) by (destruct vals; [congruence|simpl; lia]).
  assert (R: forall x, In x vals -> hd 0 vals <= x <= last vals 0).
  { intros x Hx. destruct (In_nth vals x 0 Hx) as (i & Hi & <-). rewrite hd_nth, last_nth. split; apply increasing_le; auto; lia. }
  set (br := vals ++ [last vals 0 + 1]).
  assert (Lb: length br = S (length vals)) by (unfold br; rewrite app_length; simpl; lia).
  assert (Ib: increasing br) by (apply increasing_snoc; auto; intros; lra).
  assert (Nb: forall i, (i < length vals)%nat -> nth i br 0 = nth i vals 0) by (intros i Hi; apply app_nth1; auto).
  assert (C: counted br data = data).
  { unfold counted, within.
    assert (G: forall l, (forall x, In x l -> hd 0 br <= x <= last br 0) -> filter (fun x => if Rle_dec (hd 0 br) x then if Rle_dec x (last br 0) then true else false else false) l = l).
    { induction l as [|x l IH]; intros H; auto. cbn [filter]. pose proof (H x (or_introl eq_refl)). destruct (Rle_dec (hd 0 br) x); [|lra]. destruct (Rle_dec x (last br 0)); [|lra].
      f_equal. apply IH. intros y Hy. apply H. right. auto. }
    apply G. intros x Hx. unfold br. rewrite hd_app, last_snoc by auto. pose proof (R x (Hin x Hx)). lra. }
  assert (Bn: forall i, (i < length vals)%nat -> bin_of br (nth i vals 0) = i).
  { intros i Hi. unfold bin_of. rewrite <- Nb by auto. rewrite search_right_at by (auto; lia). lia. }
  assert (BC: forall i, (i < length vals)%nat -> bin_count br data i = count_occ Req_EM_T data (nth i vals 0)).
  { intros i Hi. unfold bin_count. rewrite C. clear - Hi Hin Bn I. induction data as [|x data IH]; auto.
    cbn [filter count_occ]. assert (Hx: In x vals) by (apply Hin; left; auto). destruct (In_nth vals x 0 Hx) as (j & Hj & <-). rewrite Bn by auto.
    specialize (IH (fun y Hy => Hin y (or_intror Hy))). destruct (Req_EM_T (nth j vals 0) (nth i vals 0)) as [E|N].
    - assert (j = i). { destruct (Nat.lt_trichotomy j i) as [L|[|L]]; auto; exfalso; [pose proof (increasing_lt vals j i I ltac:(lia))|pose proof (increasing_lt vals i j I ltac:(lia))]; lra. }
      subst j. rewrite Nat.eqb_refl. cbn [length]. f_equal. exact IH.
    - destruct (Nat.eqb_spec j i) as [->|]; [congruence|]. exact IH. }
  destruct (histogram_heights br data Ib ltac:(lia)) as (r & (Er & Pr & _) & Lr & Nr).
  { destruct data as [|x data]; [congruence|]. exists x. split; [left; auto|]. unfold br. rewrite hd_app, last_snoc by auto. pose proof (R x (Hin x (or_introl eq_refl))). lra. }
  assert (PN: 0 < INR (length data)) by (apply lt_0_INR; destruct data; [congruence|simpl; lia]).
  assert (Nr': forall i, (i < length vals)%nat -> nth i r 0 = INR (bin_count br data i) / INR (length data)).
  { intros i Hi. rewrite Nr, C by lia. replace (nth (S i) br 0 - nth i br 0) with 1; [field; lra|].
    destruct (Nat.eq_dec (S i) (length vals)) as [E|N].
    - rewrite (Nb i) by auto. unfold br. rewrite E, nth_middle, last_nth. replace (length vals - 1)%nat with i by lia. ring.
    - rewrite !Nb by lia. rewrite Hu by lia. ring. }
  exists r. split; [destruct data; [congruence|exact Er]|]. split; [lia|]. split; [intros i Hi; rewrite Nr', BC by auto; reflexivity|].
  rewrite (rsum_ext _ _ (fun i => INR (bin_count br data i) * / INR (length data))) by (intros; apply Nr'; auto).
  rewrite rsum_scal_r. unfold bin_count. rewrite C. rewrite sum_bins; [field; lra|]. intros x Hx. pose proof (bin_lt br ltac:(lia) x). lia.
Qed.

(** Data with values 0 .. B-1. *)
Definition in_domain (B : nat) (data : list R) : Prop := forall x, In x data -> exists v, (v < B)%nat /\ x = INR v.
(** The stored probability of the value [v]: Laplace smoothing of the frequencies; uniform if a cell has no data. *)
Definition smoothed (B : nat) (alpha : R) (data : list R) (v : nat) : R :=
  match data with [] => 1 / INR B | _ => (INR (count_occ Req_EM_T data (INR v)) + alpha) / (INR (length data) + INR B * alpha) end.
Lemma values_nth B i : (i < B)%nat -> nth i (map INR (seq 0 B)) 0 = INR i.
Proof. intros H. change 0 with (INR 0) at 1. rewrite map_nth, seq_nth; auto. Qed.
Lemma values_unit B : unit_spaced (map INR (seq 0 B)).
Proof. intros i Hi. rewrite map_length, seq_length in Hi. rewrite !values_nth by lia. rewrite S_INR. ring. Qed.
Lemma domain_usable B data : (0 < B)%nat -> in_domain B data -> usable (pl_domain B) data.
Proof.
  intros HB Hd. unfold pl_domain, usable. split; [destruct B; [lia|discriminate]|]. split; [apply unit_increasing, values_unit|].
  destruct data as [|x data]; [auto|]. right. destruct (Hd x (or_introl eq_refl)) as (v & Hv & ->). exists (INR v). split; [left; auto|].
  rewrite hd_nth, last_nth, map_length, seq_length, !values_nth by lia. split; [apply le_INR; lia|].
  pose proof (le_INR v (B - 1) ltac:(lia)). lra.
Qed.
Lemma smoothed_sum B alpha data : (0 < B)%nat -> 0 <= alpha -> in_domain B data -> rsum B (smoothed B alpha data) = 1 /\ forall v, (v < B)%nat -> 0 <= smoothed B alpha data v.
Proof.
  intros HB Ha Hd. assert (PB: 0 < INR B) by (apply lt_0_INR; auto). destruct data as [|x0 data].
  - split; [rewrite (rsum_ext _ _ (fun _ => 1 / INR B)) by reflexivity; rewrite rsum_const; field; lra|]. intros v _. cbn [smoothed]. apply Rmult_le_pos; [lra|left; apply Rinv_0_lt_compat; auto].
  - set (d := x0 :: data) in *. assert (Nd: d <> []) by discriminate.
    assert (PN: 0 < INR (length d)) by (apply lt_0_INR; unfold d; simpl; lia). pose proof (Rmult_le_pos _ _ (Rlt_le _ _ PB) Ha) as PA.
    assert (Es: forall v, smoothed B alpha d v = (INR (count_occ Req_EM_T d (INR v)) + alpha) * / (INR (length d) + INR B * alpha)) by reflexivity.
    clearbody d. split.
    + rewrite (rsum_ext _ _ _ (fun v _ => Es v)). rewrite rsum_scal_r, rsum_plus, rsum_const.
      destruct (frequencies (map INR (seq 0 B)) d) as (r & _ & _ & F & S); auto.
      { destruct B; [lia|discriminate]. } { apply values_unit. }
      { intros x Hx. destruct (Hd x Hx) as (v & Hv & ->). apply in_map, in_seq. lia. }
      rewrite map_length, seq_length in *. 
      assert (Q: rsum B (fun v => INR (count_occ Req_EM_T d (INR v))) = INR (length d)).
      { rewrite (rsum_ext B _ (fun v => nth v r 0 * INR (length d))); [rewrite rsum_scal_r, S; ring|].
        intros v Hv. rewrite F by auto. rewrite values_nth by auto. field. lra. }
      rewrite Q. field. lra.
    + intros v _. rewrite Es. apply Rmult_le_pos; [pose proof (pos_INR (count_occ Req_EM_T d (INR v))); lra|left; apply Rinv_0_lt_compat; lra].
Qed.

(** What initialize computes for one cell: the values are drawn and scored with their smoothed frequencies. *)
Theorem C66_values : forall B alpha data, (0 < B)%nat -> 0 <= alpha -> in_domain B data ->
  exists xs ys, pl_init (pl_domain B) alpha data = Ok (xs, ys) /\
    (forall v, (v < B)%nat -> interp xs ys (INR v) = Fin (smoothed B alpha data v) /\ pl_discrete_prob ys v = Fin (smoothed B alpha data v)) /\
    (forall v, (v < B)%nat -> smoothed B alpha data v <= smoothed B alpha data (nargmax (length ys) (fun i => nth i ys NaN) - 1)) /\
    (nargmax (length ys) (fun i => nth i ys NaN) - 1 < B)%nat /\ pl_mpe xs ys = INR (nargmax (length ys) (fun i => nth i ys NaN) - 1) /\
    rsum B (smoothed B alpha data) = 1.
Proof.
  intros B alpha data HB Ha Hd. pose proof (domain_usable B data HB Hd) as U. unfold pl_domain in *. set (vals := map INR (seq 0 B)) in *.
  assert (Hv: vals <> []) by (unfold vals; destruct B; [lia|discriminate]). assert (Hu: unit_spaced vals) by apply values_unit.
  assert (Lv: length vals = B) by (unfold vals; rewrite map_length, seq_length; auto). assert (PB: 0 < INR B) by (apply lt_0_INR; auto).
  destruct (smoothed_sum B alpha data HB Ha Hd) as [Sm Ps].
  assert (H: exists r, pl_smooth alpha data (vals ++ [last vals 0 + 1]) (pl_densities (Discrete vals) data (vals ++ [last vals 0 + 1])) = map Fin r /\
     length r = length vals /\ forall i, (i < B)%nat -> nth i r 0 = smoothed B alpha data i).
  { destruct data as [|x0 data].
    - exists (map (fun _ => 1 / INR B) vals). split; [|split; [apply map_length|]].
      + cbn [pl_densities]. unfold pl_smooth. rewrite Lv. destruct (Rlt_dec 0 alpha) as [La|La]; [|rewrite map_map; reflexivity].
        rewrite !map_map. apply map_ext. intros _. cbn [length]. rewrite app_length, Lv. cbn [length]. replace (B + 1 - 1)%nat with B by lia. cbn [INR nmul nadd].
        pose proof (Rmult_lt_0_compat _ _ PB La). rewrite ndiv_fin by lra. f_equal. field. lra.
      + intros i Hi. rewrite (map_nth_R (fun _ => 1 / INR B)) by lia. reflexivity.
    - set (d := x0 :: data) in *. assert (Nd: d <> []) by discriminate.
      assert (PN: 0 < INR (length d)) by (apply lt_0_INR; unfold d; simpl; lia).
      assert (Es: forall v, smoothed B alpha d v = (INR (count_occ Req_EM_T d (INR v)) + alpha) * / (INR (length d) + INR B * alpha)) by reflexivity.
      clearbody d.
      destruct (frequencies vals d) as (r & D & Lr & F & S); auto.
      { intros x Hx. destruct (Hd x Hx) as (v & Hv' & ->). apply in_map, in_seq. lia. }
      rewrite D. unfold pl_smooth. destruct (Rlt_dec 0 alpha) as [La|La].
      + pose proof (Rmult_lt_0_compat _ _ PB La). exists (map (fun p => (p * INR (length d) + alpha) / (INR (length d) + INR B * alpha)) r).
        split; [|split; [rewrite map_length; auto|]].
        * rewrite !map_map. apply map_ext. intros p. rewrite app_length, Lv. cbn [length]. replace (B + 1 - 1)%nat with B by lia. cbn [nmul nadd]. rewrite ndiv_fin by lra. reflexivity.
        * intros i Hi. rewrite map_nth_R, F, Es by lia. unfold vals. rewrite values_nth by auto. field. lra.
      + assert (alpha = 0) by lra. subst alpha. exists r. split; auto. split; auto. intros i Hi. rewrite F, Es by lia. unfold vals. rewrite values_nth by auto. field. lra. }
  destruct H as (r & Er & Lr & Vr).
  destruct (init_values vals alpha data r) as (xs & ys & f & E & A & Q & Y); auto.
  { rewrite Lv, <- Sm. apply rsum_ext. auto. }
  exists xs, ys. split; auto.
  assert (V: forall v, (v < B)%nat -> f (INR v) = smoothed B alpha data v).
  { intros v Hv'. rewrite <- Vr, <- Q by lia. unfold vals. rewrite values_nth by auto. reflexivity. }
  split; [intros v Hv'; split; [rewrite (proj1 (A _)), V by auto; reflexivity|]|].
  - destruct (C49_discrete vals alpha data Hu U) as (xs' & ys' & f' & E' & A' & P'). rewrite E in E'. injection E' as <- <-.
    rewrite P' by lia. unfold vals. rewrite values_nth by auto. pose proof (A' (INR v)) as A''. rewrite (proj1 (A _)), V in A'' by auto. symmetry. exact A''.
  - set (m := nargmax (length ys) (fun i => nth i ys NaN)).
    assert (Ly: length ys = S (S B)) by (rewrite Y, map_length, !app_length; cbn [length]; lia).
    set (h := fun i => nth i ([0] ++ r ++ [0]) 0).
    assert (Hh: forall i, (i < S (S B))%nat -> nth i ys NaN = Fin (h i)).
    { intros i Hi. rewrite Y. apply nth_map_Fin. rewrite !app_length. cbn [length]. lia. }
    assert (M: (m < S (S B))%nat /\ forall i, (i < S (S B))%nat -> h i <= h m).
    { unfold m. rewrite Ly. split; [apply nargmax_lt; lia|]. apply nargmax_max; [lia|exact Hh]. }
    destruct M as [M1 M2].
    assert (H0: h 0%nat = 0) by reflexivity. assert (H1: h (S B) = 0) by (unfold h; cbn [app nth]; rewrite <- Lv, <- Lr, nth_middle; reflexivity).
    assert (HV: forall v, (v < B)%nat -> h (S v) = smoothed B alpha data v) by (intros v Hv'; unfold h; cbn [app nth]; rewrite app_nth1 by lia; apply Vr; auto).
    assert (Pm: 0 < h m).
    { destruct (Rlt_le_dec 0 (h m)); auto. exfalso. assert (rsum B (smoothed B alpha data) <= 0); [|lra].
      apply Rle_trans with (rsum B (fun _ => 0)); [apply rsum_le|rewrite rsum_zero; lra]. intros v Hv'. rewrite <- HV by auto. specialize (M2 (S v) ltac:(lia)). lra. }
    assert (Bm: (1 <= m <= B)%nat).
    { destruct (Nat.eq_dec m 0) as [e|]; [rewrite e, H0 in Pm; lra|]. destruct (Nat.eq_dec m (S B)) as [e|]; [rewrite e, H1 in Pm; lra|]. lia. }
    split; [|split; [lia|split; [|exact Sm]]].
    + intros v Hv'. rewrite <- HV by auto. replace (m - 1)%nat with (pred m) by lia. rewrite <- (HV (pred m)) by lia. replace (S (pred m)) with m by lia. apply M2. lia.
    + unfold pl_mpe. fold m. destruct (discrete_init _ _ _ _ _ E) as [_ ->]. replace m with (S (m - 1)) at 1 by lia. cbn [app nth].
      rewrite app_nth1 by lia. apply values_nth. lia.
Qed.
Print Assumptions C66_values.

(** Every cell was initialized from data of the domain. *)
Definition initialized (B : nat) (alpha : R) (data : list nat -> list R) (xs : list nat -> list R) (ys : list nat -> list num) : Prop :=
  forall key, in_domain B (data key) /\ pl_init (pl_domain B) alpha (data key) = Ok (xs key, ys key).
Lemma smoothed_pos B alpha data v : (0 < B)%nat -> 0 < alpha -> 0 < smoothed B alpha data v.
Proof.
  intros HB Ha. assert (PB: 0 < INR B) by (apply lt_0_INR; auto). destruct data as [|x d]; unfold smoothed.
  - apply Rmult_lt_0_compat; [lra|apply Rinv_0_lt_compat; auto].
  - set (n := length _). pose proof (pos_INR n). pose proof (Rmult_lt_0_compat _ _ PB Ha). pose proof (pos_INR (count_occ Req_EM_T (x :: d) (INR v))).
    apply Rmult_lt_0_compat; [lra|apply Rinv_0_lt_compat; lra].
Qed.

Lemma rprod_pow n a : rprod n (fun _ => a) = a ^ n.
Proof. induction n; [reflexivity|]. rewrite rprod_S, IHn. simpl. ring. Qed.
Section Cells.
Variables (B : nat) (alpha : R) (data : list nat -> list R) (xs : list nat -> list R) (ys : list nat -> list num).
Hypothesis HB : (0 < B)%nat.
Hypothesis Ha : 0 <= alpha.
Hypothesis HI : initialized B alpha data xs ys.
Let p key v := smoothed B alpha (data key) v.

Lemma cell_values key : (forall v, (v < B)%nat -> interp (xs key) (ys key) (INR v) = Fin (p key v) /\ pl_discrete_prob (ys key) v = Fin (p key v)) /\
  (forall v, (v < B)%nat -> p key v <= p key (nargmax (length (ys key)) (fun i => nth i (ys key) NaN) - 1)) /\
  (nargmax (length (ys key)) (fun i => nth i (ys key) NaN) - 1 < B)%nat /\
  pl_mpe (xs key) (ys key) = INR (nargmax (length (ys key)) (fun i => nth i (ys key) NaN) - 1) /\
  rsum B (p key) = 1 /\ (forall v, (v < B)%nat -> 0 <= p key v).
Proof.
  destruct (HI key) as [Hd E]. destruct (C66_values B alpha (data key) HB Ha Hd) as (xs' & ys' & E' & V & M & M1 & M2 & S).
  rewrite E in E'. injection E' as <- <-. destruct (smoothed_sum B alpha (data key) HB Ha Hd) as [_ P]. repeat (split; [assumption|]). exact P.
Qed.
(** The score: the logarithm, with -300 for the logarithm of zero. *)
Lemma cell_score key v : (v < B)%nat -> pl_log_prob (xs key) (ys key) (INR v) = Fin (if Rlt_dec 0 (p key v) then ln (p key v) else -300).
Proof.
  intros Hv. destruct (cell_values key) as (V & _ & _ & _ & _ & P). unfold pl_log_prob. rewrite (proj1 (V v Hv)). unfold nlog. specialize (P v Hv).
  destruct (Rlt_dec 0 (p key v)); auto. destruct (Req_EM_T (p key v) 0); [reflexivity|lra].
Qed.
Lemma cell_score_pos key v : (v < B)%nat -> 0 < p key v -> pval (pl_log_prob (xs key) (ys key) (INR v)) = p key v.
Proof. intros Hv Hp. rewrite cell_score by auto. destruct (Rlt_dec 0 (p key v)); [|lra]. cbn [pval]. apply exp_ln. auto. Qed.
Lemma cell_floor key v : (v < B)%nat -> p key v <= pval (pl_log_prob (xs key) (ys key) (INR v)) <= p key v + exp (-300).
Proof.
  intros Hv. pose proof (exp_pos (-300)) as Pe. destruct (Rlt_dec 0 (p key v)) as [G|G].
  - rewrite cell_score_pos by auto. lra.
  - rewrite cell_score by auto. destruct (Rlt_dec 0 (p key v)); [lra|]. cbn [pval]. destruct (cell_values key) as (_ & _ & _ & _ & _ & P). specialize (P v Hv). lra.
Qed.
Lemma draw_ok : leaf_expectation (pl_draw B ys).
Proof.
  apply EL_discrete_ok. intros key. destruct (cell_values key) as (V & _ & _ & _ & S & _). rewrite <- S. apply rsum_ext. intros v Hv.
  rewrite (proj2 (V v Hv)). reflexivity.
Qed.
Lemma draw_point key v : (v < B)%nat -> pl_draw B ys key (fun w => eqv (Some w) v) = p key v.
Proof.
  intros Hv. unfold pl_draw, EL_discrete. destruct (cell_values key) as (V & _). rewrite (rsum_single B v); auto.
  - unfold eqv. rewrite Nat.eqb_refl, (proj2 (V v Hv)). cbn [toR]. ring.
  - intros w _ Hw. unfold eqv. destruct (Nat.eqb_spec w v); [congruence|ring].
Qed.

(** Smoothing, or every value seen in every cell: the layer is a discrete leaf like the others. *)
Lemma exact_leaf F C L Rn : (forall key v, (v < B)%nat -> 0 < p key v) -> discrete_leaf B (pl_leaf F C L Rn B xs ys).
Proof.
  intros Hp. split; [reflexivity|]. intros c f l r _ _ _ _. cbn [lf_logp pl_leaf]. destruct (cell_values [c; f; l; r]) as (_ & _ & _ & _ & S & _).
  rewrite <- S. apply rsum_ext. intros v Hv. apply cell_score_pos; auto.
Qed.

Variables (g : config) (o : oracle nat) (E : einet nat).
Hypothesis HA : accepted g o E.
Hypothesis HL : leafE E = pl_leaf (e_F E) (e_C E) (e_L E) (e_R E) B xs ys.
Let HE := accepted_ok g o E HA.
Let C := e_C E.
Let F := e_F E.
Let eps := exp (-300).
(** The network with the stored probabilities instead of the scores. *)
Definition ideal (x : nat -> nat -> nat) (k : nat) : R := neteval (fnet E) (lval (fun c f l r v => p [c; f; l; r] v) (fun c f => Some (x c f))) k.
Definition scored (x : nat -> nat -> nat) (k : nat) : R := neteval (fnet E) (lval (pdf (leafE E)) (fun c f => Some (x c f))) k.

Lemma pl_pdf c f l r v : (v < B)%nat -> pdf (leafE E) c f l r v = pval (pl_log_prob (xs [c; f; l; r]) (ys [c; f; l; r]) (INR v)).
Proof. intros Hv. unfold pdf. rewrite HL. cbn [lf_logp pl_leaf]. rewrite cell_score by auto. reflexivity. Qed.
Lemma pl_batch x : (forall c f, (c < C)%nat -> (f < F)%nat -> (x c f < B)%nat) -> batch E 1 (one_row C F x).
Proof.
  intros H. split; [right; left; reflexivity|]. intros n c f v Hn Hc Hf Hv. cbn in Hv. inversion Hv; subst v.
  rewrite HL. cbn [lf_supp pl_leaf]. apply Nat.ltb_lt. auto.
Qed.
Lemma lik_scored x k : (forall c f, (c < C)%nat -> (f < F)%nat -> (x c f < B)%nat) -> (k < e_K E)%nat ->
  lik E (one_row C F x) None 0 k = scored x k.
Proof. intros H Hk. rewrite (lik_eval E HE 1) by (auto; apply batch_input, pl_batch; auto). reflexivity. Qed.
Lemma p_nonneg key v : 0 <= p key v.
Proof.
  unfold p, smoothed. assert (PB: 0 < INR B) by (apply lt_0_INR; auto). destruct (data key) as [|x d]; [apply Rmult_le_pos; [lra|left; apply Rinv_0_lt_compat; auto]|].
  pose proof (pos_INR (count_occ Req_EM_T (x :: d) (INR v))). pose proof (Rmult_le_pos _ _ (Rlt_le _ _ PB) Ha).
  assert (0 < INR (length (x :: d))) by (apply lt_0_INR; simpl; lia). apply Rmult_le_pos; [lra|left; apply Rinv_0_lt_compat; lra].
Qed.
Lemma ideal_scored x k : (forall c f, (c < C)%nat -> (f < F)%nat -> (x c f < B)%nat) -> (k < e_K E)%nat -> ideal x k <= scored x k.
Proof.
  intros H Hk. apply neteval_mono; [apply fnet_wf; exact HE|exact Hk|]. intros c f l r Hc Hf _ _. unfold lval. split; [apply p_nonneg|].
  rewrite pl_pdf by (apply H; auto). apply cell_floor. apply H; auto.
Qed.
Lemma ideal_exact x k : (forall c f, (c < C)%nat -> (f < F)%nat -> (x c f < B)%nat) -> (k < e_K E)%nat ->
  (forall c f l r, (c < C)%nat -> (f < F)%nat -> (l < e_L E)%nat -> (r < e_R E)%nat -> 0 < p [c; f; l; r] (x c f)) -> ideal x k = scored x k.
Proof.
  intros H Hk Hp. apply neteval_ext; [apply fnet_wf; exact HE|exact Hk|]. intros c f l r Hc Hf Hl Hr. unfold lval.
  rewrite pl_pdf by (apply H; auto). symmetry. apply cell_score_pos; [apply H; auto|]. apply Hp; auto.
Qed.
Let pt (w : list nat) (c f : nat) : nat := nth (c * F + f) w 0%nat.
Lemma pt_lt w : In w (vectors B (C * F)) -> forall c f, (c < C)%nat -> (f < F)%nat -> (pt w c f < B)%nat.
Proof. intros Hw c f Hc Hf. apply vectors_In in Hw as [_ Hw]. apply Hw. nia. Qed.
(** The values of a network whose leaves sum to one sum to one. *)
Lemma net_total (q : nat -> nat -> nat -> nat -> nat -> R) k : (k < e_K E)%nat -> (forall c f l r v, 0 <= q c f l r v) -> (forall c f l r, rsum B (q c f l r) = 1) ->
  lsum (fun w => neteval (fnet E) (lval q (fun c f => Some (pt w c f))) k) (vectors B (C * F)) = 1.
Proof.
  intros Hk Hq Hs.
  pose proof (net_completions (fnet E) (fnet_wf E HE) B q (fun c f l r v _ _ _ _ => Hq c f l r v) (fun c f l r _ _ _ _ => Hs c f l r) (fun _ _ => None) k Hk) as Q.
  rewrite neteval_one in Q; [|apply fnet_wf; exact HE|exact Hk|intros c f l r _ _ _ _; reflexivity].
  rewrite Q by (intros; discriminate). unfold sum_points. cbn [fnet net_with nC nF]. fold C F. symmetry. rewrite lsum_filter. apply lsum_ext. intros w _.
  replace (completes C F (fun _ _ => None) w) with true; [reflexivity|]. symmetry. apply completes_iff. intros; exact I.
Qed.
Lemma ideal_total k : (k < e_K E)%nat -> lsum (fun w => ideal (pt w) k) (vectors B (C * F)) = 1.
Proof. intros Hk. apply net_total; auto; intros; [apply p_nonneg|apply cell_values]. Qed.
Lemma scored_total k : (k < e_K E)%nat -> lsum (fun w => scored (pt w) k) (vectors B (C * F)) <= (1 + INR B * eps) ^ (C * F).
Proof.
  intros Hk. assert (Pe: 0 < eps) by apply exp_pos. pose proof (pos_INR B) as PB. pose proof (Rmult_le_pos _ _ PB (Rlt_le _ _ Pe)) as Pm.
  set (a := 1 + INR B * eps) in *. assert (Pa: 0 < a) by (unfold a; lra).
  set (q := fun c f l r v => (p [c; f; l; r] v + eps) / a).
  assert (Qp: forall c f l r v, 0 <= q c f l r v) by (intros; unfold q; apply Rmult_le_pos; [pose proof (p_nonneg [c; f; l; r] v); lra|left; apply Rinv_0_lt_compat; auto]).
  apply Rle_trans with (lsum (fun w => a ^ (C * F) * neteval (fnet E) (lval q (fun c f => Some (pt w c f))) k) (vectors B (C * F))).
  - apply lsum_le. intros w Hw.
    apply Rle_trans with (neteval (fnet E) (fun c f l r => a * lval q (fun c f => Some (pt w c f)) c f l r) k).
    + apply neteval_mono; [apply fnet_wf; exact HE|exact Hk|]. intros c f l r Hc Hf _ _. unfold lval. split; [left; apply exp_pos|].
      pose proof (pt_lt w Hw c f Hc Hf) as Hv. rewrite pl_pdf by auto. unfold q. replace (a * ((p [c; f; l; r] (pt w c f) + eps) / a)) with (p [c; f; l; r] (pt w c f) + eps) by (field; lra).
      apply cell_floor; auto.
    + rewrite (neteval_scale (fnet E) (lval q (fun c f => Some (pt w c f))) (fun _ _ => a)); [|apply fnet_wf; exact HE|exact Hk|intros; apply Qp|intros; lra].
      apply Req_le. f_equal. cbn [fnet net_with nC nF]. fold C F.
      rewrite (rprod_ext C _ (fun _ => a ^ F)) by (intros; apply rprod_pow). rewrite rprod_pow, <- pow_mult. f_equal. lia.
  - rewrite lsum_scal_l, net_total; auto; [lra|]. intros c f l r. unfold q. unfold Rdiv. rewrite rsum_scal_r, rsum_plus, rsum_const.
    destruct (cell_values [c; f; l; r]) as (_ & _ & _ & _ & S & _). rewrite S. fold a. field. lra.
Qed.
Lemma gap_total k : (k < e_K E)%nat -> lsum (fun w => Rabs (scored (pt w) k - ideal (pt w) k)) (vectors B (C * F)) <= (1 + INR B * eps) ^ (C * F) - 1.
Proof.
  intros Hk. rewrite (lsum_ext _ (fun w => scored (pt w) k + (-1) * ideal (pt w) k)).
  - rewrite lsum_plus, lsum_scal_l, ideal_total by auto. pose proof (scored_total k Hk). lra.
  - intros w Hw. pose proof (ideal_scored (pt w) k (pt_lt w Hw) Hk). rewrite Rabs_right by lra. ring.
Qed.

(** Without smoothing, a value that no component of some entry has seen has a positive score but probability zero. *)
Lemma repeat_vectors v n : (v < B)%nat -> In (repeat v n) (vectors B n).
Proof.
  intros Hv. induction n; cbn [repeat vectors]; [left; reflexivity|]. apply in_flat_map. exists v. split; [apply in_seq; lia|]. apply in_map. exact IHn.
Qed.
Lemma excess k c0 f0 v : (k < e_K E)%nat -> (c0 < C)%nat -> (f0 < F)%nat -> (v < B)%nat ->
  (forall l r, (l < e_L E)%nat -> (r < e_R E)%nat -> p [c0; f0; l; r] v = 0) -> 1 < lsum (fun w => scored (pt w) k) (vectors B (C * F)).
Proof.
  intros Hk Hc0 Hf0 Hv Hz. pose (w := repeat v (C * F)). assert (Hw: In w (vectors B (C * F))) by (apply repeat_vectors; auto).
  assert (Pw: forall c f, (c < C)%nat -> (f < F)%nat -> pt w c f = v) by (intros c f Hc Hf; unfold pt, w; rewrite (nth_indep _ _ v) by (rewrite repeat_length; nia); apply nth_repeat).
  assert (Z: ideal (pt w) k = 0).
  { unfold ideal. transitivity (neteval (fnet E) (updq (lval (fun c f l r v => p [c; f; l; r] v) (fun c f => Some (pt w c f))) c0 f0
      (fun l r => 0 * lval (fun c f l r v => p [c; f; l; r] v) (fun c f => Some (pt w c f)) c0 f0 l r)) k).
    - apply neteval_ext; [apply fnet_wf; exact HE|exact Hk|]. intros c f l r Hc Hf Hl Hr. unfold updq, lval.
      destruct (Nat.eqb_spec c c0), (Nat.eqb_spec f f0); cbn [andb]; auto. subst c f. rewrite Pw, Hz by auto. ring.
    - rewrite neteval_scale1; [ring|apply fnet_wf; exact HE|exact Hk|exact Hc0|exact Hf0|]. intros; unfold lval; apply p_nonneg. }
  assert (S: 0 < scored (pt w) k).
  { apply neteval_pos; [apply fnet_wf; exact HE|exact Hk|]. intros; unfold lval, pdf; apply exp_pos. }
  rewrite <- (ideal_total k Hk).
  assert (D: scored (pt w) k - ideal (pt w) k <= lsum (fun w => scored (pt w) k + (-1) * ideal (pt w) k) (vectors B (C * F))).
  { replace (scored (pt w) k - ideal (pt w) k) with ((fun w => scored (pt w) k + (-1) * ideal (pt w) k) w) by ring.
    apply (lsum_term_le (fun w => scored (pt w) k + (-1) * ideal (pt w) k)); auto. intros w' Hw'. pose proof (ideal_scored (pt w') k (pt_lt w' Hw') Hk). lra. }
  rewrite lsum_plus, lsum_scal_l in D. lra.
Qed.

Hypothesis Hco : consistent g.
Lemma pl_law a : check_args E a = Ok tt -> class_ok E a -> a_ev a = None -> (0 < num_samples a)%nat -> a_mpe a = false -> a_mpel a = false -> a_tsum a = 1 ->
  forall x, (forall n c f, (n < num_samples a)%nat -> (c < C)%nat -> (f < F)%nat -> (x n c f < B)%nat) ->
  expect (pl_draw B ys) (sample E a) (fun t => if rows_are (num_samples a) C F x t then 1 else 0) =
  rprod (num_samples a) (fun n => rsum (e_K E) (fun y => cweight E a n y * ideal (x n) y)).
Proof.
  intros Hch Hcl Hev HN Hm Hml HT x Hx.
  destruct (sample_free_law E HE (pl_draw B ys) draw_ok a Hch Hcl Hev HN Hm Hml) as [O X]; [rewrite HT; lra|change (lf_ctx (leafE E) = true); rewrite HL; reflexivity|].
  transitivity (expect (pl_draw B ys) (sample E a) (fun t => rprod3 (num_samples a) C F (fun n c f => eqv (get t [n; c; f]) (x n c f)))).
  - apply expect_ext_outcome; [apply draw_ok|]. intros t Ht. destruct (O _ _ Ht) as (t' & Et & St & _). inversion Et; subst t'.
    rewrite rows_are_rprod. apply rprod3_ext. intros n c f _ _ _. unfold entry. rewrite St. reflexivity.
  - etransitivity; [exact (X (fun n c f v => eqv v (x n c f)))|]. apply rprod_ext. intros n Hn. apply rsum_ext. intros y Hy. f_equal.
    rewrite HT, (snet_fnet E HE) by (auto; apply (agree_groups g o E HA Hco)). apply neteval_ext; [apply fnet_wf; exact HE|exact Hy|].
    intros c f l r Hc Hf Hl Hr. unfold elg, lval. apply draw_point. apply Hx; auto.
Qed.
End Cells.

(** * The layer as a leaf *)
(** With smoothing, or when every value occurs in every cell, the layer is a normalized discrete leaf whose draws follow its
    log-probabilities and whose mode is the most probable value: C01 to C15 apply to it like to the other families. *)
Theorem C66_leaf : forall B alpha data xs ys F C L Rn, (0 < B)%nat -> 0 <= alpha -> initialized B alpha data xs ys ->
  (0 < alpha \/ forall key v, (v < B)%nat -> In (INR v) (data key)) ->
  discrete_leaf B (pl_leaf F C L Rn B xs ys) /\
  (forall key v, (v < B)%nat -> exists s, lf_logp (pl_leaf F C L Rn B xs ys) key v = Fin s /\ pl_discrete_prob (ys key) v = Fin (exp s)) /\
  (forall m, lf_mode (pl_leaf F C L Rn B xs ys) = Some m -> forall key, (m key < B)%nat /\ pl_mpe (xs key) (ys key) = INR (m key) /\
    forall v, (v < B)%nat -> pval (lf_logp (pl_leaf F C L Rn B xs ys) key v) <= pval (lf_logp (pl_leaf F C L Rn B xs ys) key (m key))).
Proof.
  intros B alpha data xs ys F C L Rn HB Ha HI Hs.
  assert (Hp: forall key v, (v < B)%nat -> 0 < smoothed B alpha (data key) v).
  { intros key v Hv. destruct Hs as [Hs|Hs]; [apply smoothed_pos; auto|]. specialize (Hs key v Hv). destruct (data key) as [|x d] eqn:Ed; [contradiction|].
    unfold smoothed. apply (count_occ_In Req_EM_T) in Hs. apply lt_INR in Hs. cbn [INR] in Hs.
    assert (0 < INR (length (x :: d))) by (apply lt_0_INR; simpl; lia). pose proof (Rmult_le_pos _ _ (pos_INR B) Ha).
    apply Rmult_lt_0_compat; [lra|apply Rinv_0_lt_compat; lra]. }
  split; [apply (exact_leaf B alpha data xs ys HB Ha HI); auto|]. split.
  - intros key v Hv. cbn [lf_logp pl_leaf]. rewrite (cell_score B alpha data xs ys HB Ha HI) by auto. destruct (Rlt_dec 0 (smoothed B alpha (data key) v)) as [G|G]; [|exfalso; apply G; auto].
    eexists. split; [reflexivity|]. rewrite exp_ln by auto. destruct (cell_values B alpha data xs ys HB Ha HI key) as (V & _). apply V; auto.
  - intros m Hm key. cbn [lf_mode pl_leaf] in Hm. injection Hm as <-. destruct (cell_values B alpha data xs ys HB Ha HI key) as (_ & M & M1 & M2 & _).
    split; auto. split; auto. intros v Hv. cbn [lf_logp pl_leaf]. rewrite !(cell_score_pos B alpha data xs ys HB Ha HI) by auto. apply M; auto.
Qed.
Print Assumptions C66_leaf.

(** * Networks *)
(** With smoothing the likelihoods of all points sum to one.  Without it, the score -300 for the logarithm of zero adds at most
    the stated amount: [B] values, [C * F] entries. *)
Theorem C66_total : forall g o (E : einet nat) B alpha data xs ys k,
  accepted g o E -> (0 < B)%nat -> 0 <= alpha -> initialized B alpha data xs ys -> leafE E = pl_leaf (e_F E) (e_C E) (e_L E) (e_R E) B xs ys -> (k < e_K E)%nat ->
  1 <= lsum (fun w => lik E (point (e_C E) (e_F E) w) None 0 k) (vectors B (e_C E * e_F E)) <= (1 + INR B * exp (-300)) ^ (e_C E * e_F E) /\
  (0 < alpha -> lsum (fun w => lik E (point (e_C E) (e_F E) w) None 0 k) (vectors B (e_C E * e_F E)) = 1).
Proof.
  intros g o E B alpha data xs ys k HA HB Ha HI HL Hk.
  set (pt := fun (w : list nat) (c f : nat) => nth (c * e_F E + f) w 0%nat).
  assert (Hlt: forall w, In w (vectors B (e_C E * e_F E)) -> forall c f, (c < e_C E)%nat -> (f < e_F E)%nat -> (pt w c f < B)%nat).
  { intros w Hw c f Hc Hf. apply vectors_In in Hw as [_ Hw]. apply Hw. nia. }
  assert (Q: lsum (fun w => lik E (point (e_C E) (e_F E) w) None 0 k) (vectors B (e_C E * e_F E)) = lsum (fun w => scored E (pt w) k) (vectors B (e_C E * e_F E))).
  { apply lsum_ext. intros w Hw. apply (lik_scored B xs ys g o E HA HL (pt w) k); auto. }
  split; [|intros Hpos; apply (C01_normalized g o E B k HA); auto; rewrite HL; apply (C66_leaf B alpha data xs ys); auto].
  rewrite Q. split; [|apply (scored_total B alpha data xs ys HB Ha HI g o E HA HL k Hk)].
  rewrite <- (ideal_total B alpha data xs ys HB Ha HI g o E HA k Hk). apply lsum_le. intros w Hw.
  apply (ideal_scored B alpha data xs ys HB Ha HI g o E HA HL); auto. apply Hlt; auto.
Qed.
Print Assumptions C66_total.

(** A class to sample from: none for a network with one class, an index otherwise. *)
Definition class_choice (E : einet nat) (c : class_arg) (y : nat) : Prop := (e_K E = 1%nat /\ c = CNone /\ y = 0%nat) \/ ((1 < e_K E)%nat /\ (y < e_K E)%nat /\ c = CInt y).
(** Sampling draws every row from one distribution [P]: the likelihood itself with smoothing; without smoothing at most the likelihood, equal
    where every component has seen every entry, and with a total difference below the stated bound.
    Missing: configurations that are not [consistent] (C07, C64). *)
Theorem C66_samples_partial : forall g o (E : einet nat) B alpha data xs ys c y,
  accepted g o E -> consistent g -> (0 < B)%nat -> 0 <= alpha -> initialized B alpha data xs ys -> leafE E = pl_leaf (e_F E) (e_C E) (e_L E) (e_R E) B xs ys ->
  class_choice E c y ->
  exists P : (nat -> nat -> nat) -> R,
    (forall N x, (0 < N)%nat -> (forall n c f, (n < N)%nat -> (c < e_C E)%nat -> (f < e_F E)%nat -> (x n c f < B)%nat) ->
      expect (pl_draw B ys) (sample E (mkArgs (Some N) c None false false 1 None)) (fun t => if rows_are N (e_C E) (e_F E) x t then 1 else 0) = rprod N (fun n => P (x n))) /\
    (forall x, (forall c f, (c < e_C E)%nat -> (f < e_F E)%nat -> (x c f < B)%nat) ->
      P x <= lik E (one_row (e_C E) (e_F E) x) None 0 y /\
      (0 < alpha \/ (forall c f l r, (c < e_C E)%nat -> (f < e_F E)%nat -> (l < e_L E)%nat -> (r < e_R E)%nat -> In (INR (x c f)) (data [c; f; l; r])) ->
       P x = lik E (one_row (e_C E) (e_F E) x) None 0 y)) /\
    lsum (fun w => Rabs (lik E (point (e_C E) (e_F E) w) None 0 y - P (fun c f => nth (c * e_F E + f) w 0%nat))) (vectors B (e_C E * e_F E)) <=
      (1 + INR B * exp (-300)) ^ (e_C E * e_F E) - 1.
Proof.
  intros g o E B alpha data xs ys c y HA Hco HB Ha HI HL Hc.
  assert (Hy: (y < e_K E)%nat) by (destruct Hc as [(-> & _ & ->)|(_ & H & _)]; [lia|auto]).
  exists (fun x => ideal B alpha data E x y). split; [|split].
  - intros N x HN Hx. set (a := mkArgs (Some N) c None false false 1 None).
    change N with (num_samples a). rewrite (pl_law B alpha data xs ys HB Ha HI g o E HA HL Hco a); auto.
    + apply rprod_ext. intros n Hn. destruct Hc as [(HK & -> & ->)|(HK & Hy' & ->)].
      * rewrite HK, rsum_1. unfold cweight. rewrite HK. cbn [Nat.ltb Nat.leb]. ring.
      * unfold cweight. destruct (Nat.ltb_spec 1 (e_K E)); [|lia]. cbn [a a_class]. apply (rsum_ind (e_K E) y (fun k => ideal B alpha data E (x n) k)). auto.
    + unfold check_args. destruct Hc as [(HK & -> & _)|(HK & _ & ->)]; cbn; [destruct (e_K E =? 1)%nat; reflexivity|]. destruct (Nat.eqb_spec (e_K E) 1); [lia|reflexivity].
    + destruct Hc as [(HK & -> & _)|(HK & Hy' & ->)]; [exact I|split; auto].
  - intros x Hx. rewrite (lik_scored B xs ys g o E HA HL x y) by auto. split; [apply (ideal_scored B alpha data xs ys HB Ha HI g o E HA HL); auto|].
    intros Hs. apply (ideal_exact B alpha data xs ys HB Ha HI g o E HA HL); auto. intros c' f l r Hc' Hf Hl Hr.
    destruct Hs as [Hs|Hs]; [apply smoothed_pos; auto|]. specialize (Hs c' f l r Hc' Hf Hl Hr). destruct (data [c'; f; l; r]) as [|x0 d] eqn:Ed; [contradiction|].
    unfold smoothed. apply (count_occ_In Req_EM_T) in Hs. apply lt_INR in Hs. cbn [INR] in Hs.
    assert (0 < INR (length (x0 :: d))) by (apply lt_0_INR; simpl; lia). pose proof (Rmult_le_pos _ _ (pos_INR B) Ha).
    apply Rmult_lt_0_compat; [lra|apply Rinv_0_lt_compat; lra].
  - eapply Rle_trans; [|apply (gap_total B alpha data xs ys HB Ha HI g o E HA HL y Hy)]. apply Req_le. apply lsum_ext. intros w Hw. f_equal. f_equal.
    apply (lik_scored B xs ys g o E HA HL (fun c f => nth (c * e_F E + f) w 0%nat) y); auto. intros c' f Hc' Hf. apply vectors_In in Hw as [_ Hw]. apply Hw. nia.
Qed.
Print Assumptions C66_samples_partial.

(** Without smoothing a network in which some entry never takes some value has likelihoods with a total above one. *)
Theorem C66_floor_refuted : forall g o (E : einet nat) B data xs ys k c f v,
  accepted g o E -> (0 < B)%nat -> initialized B 0 data xs ys -> leafE E = pl_leaf (e_F E) (e_C E) (e_L E) (e_R E) B xs ys -> (k < e_K E)%nat ->
  (c < e_C E)%nat -> (f < e_F E)%nat -> (v < B)%nat ->
  (forall l r, (l < e_L E)%nat -> (r < e_R E)%nat -> data [c; f; l; r] <> [] /\ ~ In (INR v) (data [c; f; l; r])) ->
  1 < lsum (fun w => lik E (point (e_C E) (e_F E) w) None 0 k) (vectors B (e_C E * e_F E)).
Proof.
  intros g o E B data xs ys k c f v HA HB HI HL Hk Hc Hf Hv Hu.
  eapply Rlt_le_trans; [apply (excess B 0 data xs ys HB (Rle_refl 0) HI g o E HA HL k c f v Hk Hc Hf Hv)|].
  - intros l r Hl Hr. destruct (Hu l r Hl Hr) as [Hn Hi]. destruct (data [c; f; l; r]) as [|x d]; [congruence|]. unfold smoothed.
    rewrite (proj1 (count_occ_not_In Req_EM_T _ _) Hi). cbn [INR]. unfold Rdiv. ring.
  - apply Req_le. apply lsum_ext. intros w Hw. symmetry. apply (lik_scored B xs ys g o E HA HL (fun c f => nth (c * e_F E + f) w 0%nat) k); auto.
    intros c' f' Hc' Hf'. apply vectors_In in Hw as [_ Hw]. apply Hw. nia.
Qed.
Print Assumptions C66_floor_refuted.

(** * A built network: ten entries with the values 0, 1, 2; the first entry never takes the value 2. *)
Definition ex_pl_data (key : list nat) : list R := match key with O :: O :: l => [INR (list_sum l mod 2); 1] | _ => [INR (list_sum key mod 3); 2] end.
Definition ex_pl_xs (alpha : R) (key : list nat) : list R := match pl_init (pl_domain 3) alpha (ex_pl_data key) with Ok (xs, _) => xs | _ => [] end.
Definition ex_pl_ys (alpha : R) (key : list nat) : list num := match pl_init (pl_domain 3) alpha (ex_pl_data key) with Ok (_, ys) => ys | _ => [] end.
Lemma ex_pl_domain key : in_domain 3 (ex_pl_data key).
Proof.
  assert (A: forall n, (n < 3)%nat -> exists v, (v < 3)%nat /\ INR n = INR v) by (intros n Hn; exists n; auto).
  assert (M3: forall n, (n mod 3 < 3)%nat) by (intros; apply Nat.mod_upper_bound; lia). assert (M2: forall n, (n mod 2 < 3)%nat) by (intros n; pose proof (Nat.mod_upper_bound n 2); lia).
  intros x Hx. unfold ex_pl_data in Hx. destruct key as [|[|c] [|[|f] l]]; destruct Hx as [<-|[<-|[]]]; first [apply A; auto; fail | change 1 with (INR 1); apply A; lia | change 2 with (INR 2); apply A; lia].
Qed.
Lemma ex_pl_init alpha : 0 <= alpha -> initialized 3 alpha ex_pl_data (ex_pl_xs alpha) (ex_pl_ys alpha).
Proof.
  intros Ha key. split; [apply ex_pl_domain|]. unfold ex_pl_xs, ex_pl_ys. destruct (C66_values 3 alpha (ex_pl_data key) ltac:(lia) Ha (ex_pl_domain key)) as (xs & ys & E & _).
  rewrite E. reflexivity.
Qed.
Definition ex_pl_o (alpha : R) : oracle nat :=
  mkOracle (fun i idx => grow (i :: idx)) grow grow grow [1; 2; 1; 1]%nat ex_td_perm (fun F C L R => Ok (pl_leaf F C L R 3 (ex_pl_xs alpha) (ex_pl_ys alpha))).
Lemma ex_pl alpha : 0 <= alpha -> exists E, accepted ex_td_g (ex_pl_o alpha) E /\ e_F E = 5%nat /\ e_C E = 2%nat /\ e_K E = 3%nat /\
  leafE E = pl_leaf (e_F E) (e_C E) (e_L E) (e_R E) 3 (ex_pl_xs alpha) (ex_pl_ys alpha).
Proof.
  intros Ha. assert (O: oracle_ok ex_td_g (ex_pl_o alpha)).
  { destruct ex_td_oracle. split; cbn [ex_pl_o o_logits o_top o_mix o_root o_sizes o_perm o_leaf] in *; auto.
    unfold ex_td_g, plain. cbn [g_F g_C g_L g_R]. rewrite !nval_nat. eexists. split; [reflexivity|]. split; [|repeat split].
    split; [reflexivity|]. intros c f l r v _ _ _ _ Hv. cbn [lf_supp pl_leaf] in Hv. apply Nat.ltb_lt in Hv. cbn [lf_logp pl_leaf].
    rewrite (cell_score 3 alpha ex_pl_data) by (auto; apply ex_pl_init; auto). reflexivity. }
  destruct (build_succeeds ex_td_g (ex_pl_o alpha)) as (E & HE); auto.
  - apply plain_valid; try lia; try lra; try congruence. simpl; lia.
  - exists 0%R. split; [constructor|lra].
  - cbn [ex_td_g plain g_depth zval]. lia.
  - discriminate.
  - exists E. assert (A: accepted ex_td_g (ex_pl_o alpha) E) by (split; auto). split; auto. destruct (build_inv ex_td_g (ex_pl_o alpha) E eq_refl O HE) as (HO & EF & EC & ER & EK).
    cbn [ex_td_g plain g_F g_C g_R g_K] in *. rewrite nval_nat in *. repeat (split; [assumption|]).
    assert (L: leafE E = pl_leaf 5 2 2 2 3 (ex_pl_xs alpha) (ex_pl_ys alpha)).
    { unfold build in HE. apply bind_ok in HE as ([] & _ & HE). cbn [ex_td_g plain g_struct] in HE. unfold build_top_down in HE.
      apply bind_ok in HE as (? & _ & HE). apply bind_ok in HE as (? & _ & HE). apply bind_ok in HE as (? & _ & HE).
      apply bind_ok in HE as (lf & Hl & HE). apply bind_ok in HE as (? & _ & HE). apply bind_ok in HE as (? & _ & HE).
      inversion HE. unfold leafE. cbn [e_leaf]. unfold build_input in Hl. cbn [ex_pl_o o_leaf] in Hl.
      unfold ex_td_g, plain in Hl. cbn [g_F g_C g_L g_R] in Hl. rewrite !nval_nat in Hl. cbn [bind Nat.eqb] in Hl. inversion Hl. reflexivity. }
    assert (EL: e_L E = 2%nat) by (rewrite <- (eo_lL E HO); fold (leafE E); rewrite L; reflexivity).
    rewrite EF, EC, ER, EL. exact L.
Qed.
Example C66_values_ex : in_domain 3 (ex_pl_data [0; 0; 1; 1]%nat) /\ smoothed 3 1 (ex_pl_data [0; 0; 1; 1]%nat) 0 = 2 / 5.
Proof.
  split; [apply ex_pl_domain|]. unfold smoothed, ex_pl_data. cbn [list_sum fold_right Nat.add]. change (2 mod 2)%nat with 0%nat. cbn [length count_occ INR].
  destruct (Req_EM_T 0 0); [|lra]. destruct (Req_EM_T 1 0); [lra|]. cbn [INR]. lra.
Qed.
Example C66_network_ex : exists E, accepted ex_td_g (ex_pl_o 1) E /\ lsum (fun w => lik E (point 2 5 w) None 0 1) (vectors 3 10) = 1 /\
  exists E0, accepted ex_td_g (ex_pl_o 0) E0 /\ 1 < lsum (fun w => lik E0 (point 2 5 w) None 0 1) (vectors 3 10).
Proof.
  destruct (ex_pl 1) as (E & HA & HF & HC & HK & HL); [lra|]. exists E. split; auto. split.
  - pose proof (C66_total _ _ E 3 1 ex_pl_data _ _ 1%nat HA ltac:(lia) ltac:(lra) (ex_pl_init 1 ltac:(lra)) HL ltac:(lia)) as [_ H]. rewrite HF, HC in H. apply H. lra.
  - destruct (ex_pl 0) as (E0 & HA0 & HF0 & HC0 & HK0 & HL0); [lra|]. exists E0. split; auto.
    pose proof (C66_floor_refuted _ _ E0 3 ex_pl_data _ _ 1%nat 0%nat 0%nat 2%nat HA0 ltac:(lia) (ex_pl_init 0 ltac:(lra)) HL0 ltac:(lia)) as H. rewrite HF0, HC0 in H.
    apply H; try lia. intros l r _ _. unfold ex_pl_data. split; [discriminate|]. intros [G|[G|[]]]; [|cbn in G; lra].
    pose proof (Nat.mod_upper_bound (list_sum [l; r]) 2). apply INR_eq in G. lia.
Qed.
Example C66_samples_ex : exists E (P : (nat -> nat -> nat) -> R), accepted ex_td_g (ex_pl_o 0) E /\
  (forall N x, (0 < N)%nat -> (forall n c f, (n < N)%nat -> (c < 2)%nat -> (f < 5)%nat -> (x n c f < 3)%nat) ->
     expect (pl_draw 3 (ex_pl_ys 0)) (sample E (mkArgs (Some N) (CInt 2) None false false 1 None)) (fun t => if rows_are N 2 5 x t then 1 else 0) = rprod N (fun n => P (x n))).
Proof.
  destruct (ex_pl 0) as (E & HA & HF & HC & HK & HL); [lra|]. exists E.
  destruct (C66_samples_partial _ _ E 3 0 ex_pl_data _ _ (CInt 2) 2%nat HA td_consistent ltac:(lia) ltac:(lra) (ex_pl_init 0 ltac:(lra)) HL) as (P & H & _).
  - right. rewrite HK. repeat split; lia.
  - exists P. split; auto. rewrite HF, HC in H. exact H.
Qed.
