(** The Gumbel-max trick with the noise of sampling_utils.py:150-163. *)
From Coq Require Import List Arith Lia Bool Reals Lra.
Import ListNotations.
From Verif Require Import Base RSum Num Tensor Diff RefDiff PropDiff Content.
Local Open Scope R_scope.
Local Arguments Nat.div : simpl never.
Local Arguments Nat.modulo : simpl never.
Local Arguments Nat.sub : simpl never.
Local Arguments Nat.mul : simpl never.
Local Arguments Nat.add : simpl never.

(** * Sets between two families of boxes *)
Lemma content_sandwich I A (inn out : nat -> list box) : NoDup I ->
  (forall M, (0 < M)%nat -> Forall (proper I) (inn M) /\ Forall (proper I) (out M) /\ disjoint I (inn M) /\
    (forall b u, In b (inn M) -> inside I b u -> cube I u /\ A u) /\
    (forall u, cube I u -> A u -> exists b, In b (out M) /\ inside I b u) /\ total I (out M) <= total I (inn M) + / INR M) ->
  {p : R | content I A p /\ forall M, (0 < M)%nat -> total I (inn M) <= p <= total I (out M)}.
Proof.
  intros HN H.
  assert (L: forall M M', (0 < M)%nat -> (0 < M')%nat -> total I (inn M) <= total I (out M')).
  { intros M M' HM HM'. destruct (H M HM) as (P1 & _ & D1 & C1 & _). destruct (H M' HM') as (_ & P2 & _ & _ & C2 & _).
    apply inner_outer; auto. intros b u Hb Hu. destruct (C1 b u Hb Hu). apply C2; auto. }
  destruct (completeness (fun x => exists M, (0 < M)%nat /\ x = total I (inn M))) as (p & Hp1 & Hp2).
  - exists (total I (out 1%nat)). intros x (M & HM & ->). apply L; auto; lia.
  - exists (total I (inn 1%nat)), 1%nat. split; [lia|auto].
  - assert (B: forall M, (0 < M)%nat -> total I (inn M) <= p <= total I (out M)).
    { intros M HM. split; [apply Hp1; eauto|]. apply Hp2. intros x (M' & HM' & ->). apply L; auto. }
    exists p. split; auto. intros d Hd. destruct (archimed_cor1 d Hd) as (M & HM & HM0). exists (inn M), (out M).
    destruct (H M HM0) as (P1 & P2 & D1 & C1 & C2 & T). specialize (B M HM0). repeat (split; auto); lra.
Qed.

(** * One choice between [K] indices *)
Lemma eps_small : eps <= 1 / 2.
Proof.
  unfold eps. apply Rle_trans with (/ 10 ^ 1); [|simpl; lra]. apply Rinv_le_contravar; [apply pow_lt; lra|]. apply Rle_pow; [lra|lia].
Qed.
Definition tt_ (x : R) : R := - ln (x + eps) + eps.
Lemma tt_pos x : 0 <= x <= 1 -> 0 < tt_ x.
Proof.
  intros Hx. pose proof eps_pos as He. unfold tt_.
  assert (A: ln (x + eps) < eps).
  { apply Rle_lt_trans with (ln (1 + eps)); [destruct (Req_dec x 1) as [->|]; [lra|]; left; apply ln_increasing; lra|]. rewrite <- (ln_exp eps) at 2. apply ln_increasing; [lra|]. apply exp_ineq1. lra. }
  lra.
Qed.
Lemma tt_dec x y : 0 <= x -> x < y -> tt_ y < tt_ x.
Proof. intros Hx Hxy. pose proof eps_pos. unfold tt_. assert (ln (x + eps) < ln (y + eps)) by (apply ln_increasing; lra). lra. Qed.
Lemma exp_tt x : 0 <= x -> exp (eps - tt_ x) = x + eps.
Proof. intros Hx. pose proof eps_pos. unfold tt_. replace (eps - (- ln (x + eps) + eps)) with (ln (x + eps)) by ring. apply exp_ln. lra. Qed.
Definition clip (x : R) : R := Rmax 0 (Rmin 1 x).
Lemma clip_range x : 0 <= clip x <= 1.
Proof. unfold clip, Rmax, Rmin. destruct (Rle_dec 1 x); destruct (Rle_dec 0 _); lra. Qed.
Lemma clip_mono x y : x <= y -> clip x <= clip y.
Proof. intros H. unfold clip, Rmax, Rmin. destruct (Rle_dec 1 x), (Rle_dec 1 y); repeat destruct (Rle_dec 0 _); lra. Qed.
Lemma clip_near x y e : 0 <= y <= 1 -> 0 <= e -> Rabs (x - y) <= e -> Rabs (clip x - y) <= e.
Proof.
  intros Hy He H. unfold clip, Rmax, Rmin. destruct (Rle_dec 1 x); destruct (Rle_dec 0 _); auto.
  all: apply Rabs_le; revert H; unfold Rabs; destruct (Rcase_abs (x - y)); lra.
Qed.
Section Choice.
Variable K : nat.
Variable w : nat -> R.
Variable k : nat.
Hypothesis Hk : (k < K)%nat.
Let a j := exp (w j - w k).
Definition thr (j : nat) (x : R) : R := exp (eps - a j * tt_ x) - eps.
Lemma a_pos j : 0 < a j.
Proof. apply exp_pos. Qed.
Lemma thr_inc j x y : 0 <= x -> x < y -> thr j x < thr j y.
Proof.
  intros Hx Hxy. unfold thr. pose proof (tt_dec x y Hx Hxy). pose proof (a_pos j).
  assert (exp (eps - a j * tt_ x) < exp (eps - a j * tt_ y)); [|lra]. apply exp_increasing. nra.
Qed.
Lemma beats j x y : 0 <= x <= 1 -> 0 <= y <= 1 -> (w j + rgumbel y < w k + rgumbel x <-> y < thr j x).
Proof.
  intros Hx Hy. pose proof (tt_pos x Hx) as Tx. pose proof (tt_pos y Hy) as Ty. pose proof (a_pos j) as Ha. pose proof eps_pos as He. unfold rgumbel. fold (tt_ x). fold (tt_ y).
  assert (E: w j + - ln (tt_ y) < w k + - ln (tt_ x) <-> a j * tt_ x < tt_ y).
  { assert (Q: ln (a j * tt_ x) = w j - w k + ln (tt_ x)) by (rewrite ln_mult by auto; unfold a; rewrite ln_exp; ring). split; intros H.
    - apply ln_lt_inv; auto; [apply Rmult_lt_0_compat; auto|]. lra.
    - apply ln_increasing in H; [lra|apply Rmult_lt_0_compat; auto]. }
  rewrite E. unfold thr. split; intros H.
  - assert (exp (eps - tt_ y) < exp (eps - a j * tt_ x)) by (apply exp_increasing; lra). rewrite exp_tt in H0 by lra. lra.
  - apply Rnot_le_lt. intros H'. assert (exp (eps - a j * tt_ x) <= exp (eps - tt_ y)).
    { destruct (Req_dec (a j * tt_ x) (tt_ y)) as [->|]; [lra|]. left. apply exp_increasing. lra. } pose proof (exp_tt y). lra.
Qed.
Lemma beats_le j x y : 0 <= x <= 1 -> 0 <= y <= 1 -> w j + rgumbel y <= w k + rgumbel x -> y <= thr j x.
Proof.
  intros Hx Hy H. pose proof (tt_pos x Hx) as Tx. pose proof (tt_pos y Hy) as Ty. pose proof (a_pos j) as Ha. unfold rgumbel in H. fold (tt_ x) in H. fold (tt_ y) in H.
  assert (Q: ln (a j * tt_ x) = w j - w k + ln (tt_ x)) by (rewrite ln_mult by auto; unfold a; rewrite ln_exp; ring).
  assert (E: a j * tt_ x <= tt_ y). { apply Rnot_lt_le. intros C. apply ln_increasing in C; auto. lra. }
  unfold thr. assert (exp (eps - tt_ y) <= exp (eps - a j * tt_ x)).
  { destruct (Req_dec (a j * tt_ x) (tt_ y)) as [->|]; [lra|]. left. apply exp_increasing. lra. }
  rewrite exp_tt in H0 by lra. lra.
Qed.

(** The slices: the noise of index [k] lies in an interval of length 1/M. *)
Variable e : nat -> entry_of.
Hypothesis e_inj : forall i j, (i < K)%nat -> (j < K)%nat -> e i = e j -> i = j.
Definition sites : list entry_of := map e (seq 0 K).
Lemma sites_nodup : NoDup sites.
Proof.
  clear Hk a.
  unfold sites. assert (G: forall s n, (s + n <= K)%nat -> NoDup (map e (seq s n))).
  { intros s n. revert s. induction n as [|n IH]; intros s H; [constructor|]. cbn [seq map]. constructor; [|apply IH; lia].
    intros C. apply in_map_iff in C as (j & E & Hj). apply in_seq in Hj. apply e_inj in E; lia. }
  apply G. lia.
Qed.
Definition wins (u : entry_of -> R) : Prop := nargmax K (fun j => Fin (w j + rgumbel (u (e j)))) = k.
Definition code (i : entry_of) : nat := hd 0%nat (filter (fun j => if list_eq_dec Nat.eq_dec (e j) i then true else false) (seq 0 K)).
Lemma code_e j : (j < K)%nat -> code (e j) = j.
Proof.
  intros Hj. unfold code. set (f := fun j0 => _). destruct (filter f (seq 0 K)) as [|x l] eqn:E.
  - assert (In j []) as []. rewrite <- E. apply filter_In. split; [apply in_seq; lia|]. unfold f. destruct (list_eq_dec _ _ _); congruence.
  - assert (In x (x :: l)) as Hx by (left; reflexivity). rewrite <- E in Hx. apply filter_In in Hx as [H1 H2]. apply in_seq in H1. unfold f in H2. destruct (list_eq_dec _ _ _); [|discriminate].
    cbn [hd]. apply e_inj; auto; lia.
Qed.
Definition slice (M i : nat) (x : R) : box := fun idx => let j := code idx in
  if (j =? k)%nat then (INR i / INR M, INR (S i) / INR M) else (0, clip (thr j x)).
Definition inn (M : nat) : list box := map (fun i => slice M i (INR i / INR M)) (seq 0 M).
Definition out (M : nat) : list box := map (fun i => slice M i (INR (S i) / INR M)) (seq 0 M).
Definition phi (x : R) : R := rprod K (fun j => if (j =? k)%nat then 1 else clip (thr j x)).
Lemma slice_proper M i x : (0 < M)%nat -> proper sites (slice M i x).
Proof.
  intros HM idx Hidx. unfold slice. cbv zeta. destruct (_ =? k)%nat; cbn [fst snd]; [|apply clip_range].
  apply Rmult_le_compat_r; [left; apply Rinv_0_lt_compat, lt_0_INR; auto|]. rewrite S_INR. lra.
Qed.
Lemma slice_volume M i x : (0 < M)%nat -> volume sites (slice M i x) = phi x / INR M.
Proof.
  intros HM. assert (0 < INR M) by (apply lt_0_INR; auto). unfold volume, sites, phi. rewrite lprod_map.
  transitivity (rprod K (fun j => (if (j =? k)%nat then 1 else clip (thr j x)) * (if (j =? k)%nat then / INR M else 1))).
  - unfold rprod. apply lprod_ext. intros j Hj. apply in_seq in Hj. unfold slice. cbv zeta. rewrite code_e by lia. destruct (j =? k)%nat; cbn [fst snd]; [|ring]. rewrite S_INR. field. lra.
  - rewrite rprod_mult. unfold Rdiv. f_equal. rewrite (rprod_single K k); [rewrite Nat.eqb_refl; reflexivity|exact Hk|]. intros j Hj Hne. destruct (Nat.eqb_spec j k); [contradiction|auto].
Qed.
Lemma slice_inside M i x u : (0 < M)%nat -> inside sites (slice M i x) u <->
  (INR i / INR M <= u (e k) < INR (S i) / INR M /\ forall j, (j < K)%nat -> j <> k -> 0 <= u (e j) < clip (thr j x)).
Proof.
  intros HM. split.
  - intros H. split.
    + specialize (H (e k) ltac:(apply in_map, in_seq; lia)). unfold slice in H. cbv zeta in H. rewrite code_e, Nat.eqb_refl in H by auto. exact H.
    + intros j Hj Hne. specialize (H (e j) ltac:(apply in_map, in_seq; lia)). unfold slice in H. cbv zeta in H. rewrite code_e in H by auto. destruct (Nat.eqb_spec j k); [contradiction|]. exact H.
  - intros [H1 H2] idx Hidx. apply in_map_iff in Hidx as (j & <- & Hj). apply in_seq in Hj. unfold slice. cbv zeta. rewrite code_e by lia. destruct (Nat.eqb_spec j k) as [->|Hne]; auto. cbn [fst snd]. apply H2; auto; lia.
Qed.
Lemma frac_range M i : (i <= M)%nat -> (0 < M)%nat -> 0 <= INR i / INR M <= 1.
Proof.
  intros Hi HM. assert (0 < INR M) by (apply lt_0_INR; auto). split.
  - apply Rmult_le_pos; [apply pos_INR|]. left. apply Rinv_0_lt_compat; auto.
  - apply (Rmult_le_reg_r (INR M)); auto. unfold Rdiv. rewrite Rmult_assoc, Rinv_l by lra. rewrite Rmult_1_r, Rmult_1_l. apply le_INR; auto.
Qed.
Lemma find_slice M u : (0 < M)%nat -> 0 <= u < 1 -> exists i, (i < M)%nat /\ INR i / INR M <= u < INR (S i) / INR M.
Proof.
  intros HM Hu. assert (P: 0 < INR M) by (apply lt_0_INR; auto).
  assert (G: forall m, u < INR m / INR M -> exists i, (i < m)%nat /\ INR i / INR M <= u < INR (S i) / INR M).
  { induction m as [|m IH]; intros H.
    - simpl in H. unfold Rdiv in H. rewrite Rmult_0_l in H. lra.
    - destruct (Rlt_dec u (INR m / INR M)) as [H'|H']; [destruct (IH H') as (i & Hi & Hi'); exists i; split; [lia|auto]|]. exists m. split; [lia|lra]. }
  apply G. unfold Rdiv. rewrite Rinv_r by lra. lra.
Qed.
Lemma phi_range x : 0 <= phi x <= 1.
Proof.
  unfold phi. split.
  - apply rprod_nonneg. intros j _. destruct (j =? k)%nat; [lra|apply clip_range].
  - apply Rle_trans with (rprod K (fun _ => 1)); [|rewrite rprod_one; lra]. apply rprod_le. intros j _. destruct (j =? k)%nat; [split; lra|apply clip_range].
Qed.
Lemma exp_rsum n f : exp (rsum n f) = rprod n (fun j => exp (f j)).
Proof. induction n as [|n IH]; [apply exp_0|]. rewrite rsum_S, rprod_S, exp_plus, IH. reflexivity. Qed.
Lemma rsum_minus n f g : rsum n (fun i => f i - g i) = rsum n f - rsum n g.
Proof. induction n as [|n IH]; [rewrite !rsum_0; ring|]. rewrite !rsum_S, IH. ring. Qed.
Lemma sum_step (f : nat -> R) M : rsum M (fun i => f (S i)) = rsum M f + f M - f 0%nat.
Proof. induction M as [|M IH]; [rewrite !rsum_0; ring|]. rewrite !rsum_S, IH. ring. Qed.
Theorem wins_content : {p : R | content sites wins p /\ forall M, (0 < M)%nat ->
  rsum M (fun i => phi (INR i / INR M) / INR M) <= p <= rsum M (fun i => phi (INR (S i) / INR M) / INR M)}.
Proof.
  assert (T1: forall M, (0 < M)%nat -> total sites (inn M) = rsum M (fun i => phi (INR i / INR M) / INR M)).
  { intros M HM. unfold total, inn. rewrite lsum_map. apply lsum_ext. intros i _. apply slice_volume; auto. }
  assert (T2: forall M, (0 < M)%nat -> total sites (out M) = rsum M (fun i => phi (INR (S i) / INR M) / INR M)).
  { intros M HM. unfold total, out. rewrite lsum_map. apply lsum_ext. intros i _. apply slice_volume; auto. }
  destruct (content_sandwich sites wins inn out sites_nodup) as (p & Hp & B).
  - intros M HM. split; [|split; [|split; [|split; [|split]]]].
    + apply Forall_forall. intros b Hb. apply in_map_iff in Hb as (i & <- & _). apply slice_proper; auto.
    + apply Forall_forall. intros b Hb. apply in_map_iff in Hb as (i & <- & _). apply slice_proper; auto.
    + unfold inn. assert (G: forall n s, disjoint sites (map (fun i => slice M i (INR i / INR M)) (seq s n))).
      { induction n as [|n IH]; intros s; [constructor|]. cbn [seq map]. constructor; [|apply IH]. apply Forall_forall. intros c Hc. apply in_map_iff in Hc as (i & <- & Hi). apply in_seq in Hi.
        intros u H1 H2. apply slice_inside in H1 as [H1 _]; auto. apply slice_inside in H2 as [H2 _]; auto.
        assert (INR (S s) / INR M <= INR i / INR M); [|lra]. apply Rmult_le_compat_r; [left; apply Rinv_0_lt_compat, lt_0_INR; auto|]. apply le_INR. lia. }
      apply G.
    + intros b u Hb Hu. apply in_map_iff in Hb as (i & <- & Hi). apply in_seq in Hi. apply slice_inside in Hu as [H1 H2]; auto.
      pose proof (frac_range M i ltac:(lia) HM) as R1. pose proof (frac_range M (S i) ltac:(lia) HM) as R2.
      assert (Hc: forall j, (j < K)%nat -> 0 <= u (e j) < 1).
      { intros j Hj. destruct (Nat.eq_dec j k) as [->|Hne]; [lra|]. specialize (H2 j Hj Hne). pose proof (clip_range (thr j (INR i / INR M))). lra. }
      split; [intros idx Hidx; apply in_map_iff in Hidx as (j & <- & Hj); apply in_seq in Hj; apply Hc; lia|].
      assert (W: forall j, (j < K)%nat -> j <> k -> w j + rgumbel (u (e j)) < w k + rgumbel (u (e k))).
      { intros j Hj Hne. pose proof (Hc j Hj). pose proof (Hc k Hk). apply beats; try lra. specialize (H2 j Hj Hne).
        assert (u (e j) < thr j (INR i / INR M)). { unfold clip, Rmax, Rmin in H2. destruct (Rle_dec 1 (thr j (INR i / INR M))); destruct (Rle_dec 0 _); lra. }
        destruct (Req_dec (INR i / INR M) (u (e k))) as [<-|Hne']; auto. pose proof (thr_inc j (INR i / INR M) (u (e k)) ltac:(lra) ltac:(lra)). lra. }
      unfold wins. set (f := fun j => w j + rgumbel (u (e j))). destruct (Nat.eq_dec (nargmax K (fun j => Fin (f j))) k) as [|Hne]; auto. exfalso.
      pose proof (nargmax_lt K (fun j => Fin (f j)) ltac:(lia)) as Hlt.
      pose proof (W _ Hlt Hne) as C. pose proof (nargmax_max K (fun j => Fin (f j)) f ltac:(lia) ltac:(intros; reflexivity) k Hk) as C'. unfold f in C' at 1 2. fold f in C'. lra.
    + intros u Hu HA. assert (Hc: forall j, (j < K)%nat -> 0 <= u (e j) < 1) by (intros j Hj; apply Hu, in_map, in_seq; lia).
      destruct (find_slice M (u (e k)) HM (Hc k Hk)) as (i & Hi & Hui). exists (slice M i (INR (S i) / INR M)). split; [unfold out; apply in_map_iff; exists i; split; auto; apply in_seq; lia|].
      apply slice_inside; auto. split; auto. intros j Hj Hne. pose proof (Hc j Hj) as Uj. pose proof (Hc k Hk) as Uk.
      assert (Q: u (e j) <= thr j (u (e k))).
      { apply beats_le; try lra. set (f := fun j => w j + rgumbel (u (e j))). pose proof (nargmax_max K (fun j => Fin (f j)) f ltac:(lia) ltac:(intros; reflexivity) j Hj) as C. change (nargmax K (fun j => Fin (f j)) = k) in HA. rewrite HA in C. exact C. }
      pose proof (thr_inc j (u (e k)) (INR (S i) / INR M) ltac:(lra) ltac:(lra)). unfold clip, Rmax, Rmin. destruct (Rle_dec 1 (thr j (INR (S i) / INR M))); destruct (Rle_dec 0 _); lra.
    + rewrite T1, T2 by auto. rewrite (sum_step (fun i => phi (INR i / INR M) / INR M)).
      assert (P: 0 < / INR M) by (apply Rinv_0_lt_compat, lt_0_INR; auto). pose proof (phi_range (INR M / INR M)). pose proof (phi_range (INR 0 / INR M)). unfold Rdiv in *. nra.
  - exists p. split; auto. intros M HM. rewrite <- T1, <- T2 by auto. auto.
Qed.

(** ** The integral of the threshold product *)
Lemma exp_eps : exp eps <= 1 + 2 * eps.
Proof.
  pose proof eps_pos. pose proof eps_small. pose proof (exp_ineq1_le (- eps)) as H1. rewrite exp_Ropp in H1. pose proof (exp_pos eps) as H2.
  assert (H3: (1 + - eps) * exp eps <= 1). { apply Rmult_le_compat_r with (r := exp eps) in H1; [|lra]. rewrite Rinv_l in H1 by lra. exact H1. }
  apply (Rmult_le_reg_l (1 + - eps)); [lra|]. nra.
Qed.
Lemma rprod_near n f g c : 0 <= c -> (forall j, (j < n)%nat -> 0 <= f j <= 1 /\ 0 <= g j <= 1 /\ Rabs (f j - g j) <= c) ->
  Rabs (rprod n f - rprod n g) <= INR n * c.
Proof.
  clear Hk a e e_inj. intros Hc. induction n as [|n IH]; intros H.
  - unfold rprod. simpl. rewrite Rminus_eq_0, Rabs_R0. lra.
  - rewrite !rprod_S, S_INR. destruct (H n ltac:(lia)) as (F & G & D). specialize (IH ltac:(intros j Hj; apply H; lia)).
    assert (PF: 0 <= rprod n f <= 1).
    { split; [apply rprod_nonneg; intros j Hj; apply (H j); lia|]. apply Rle_trans with (rprod n (fun _ => 1)); [|rewrite rprod_one; lra]. apply rprod_le. intros j Hj. apply (H j). lia. }
    replace (rprod n f * f n - rprod n g * g n) with (rprod n f * (f n - g n) + (rprod n f - rprod n g) * g n) by ring.
    eapply Rle_trans; [apply Rabs_triang|]. rewrite !Rabs_mult, (Rabs_right (rprod n f)), (Rabs_right (g n)) by lra.
    pose proof (Rabs_pos (f n - g n)). pose proof (Rabs_pos (rprod n f - rprod n g)). nra.
Qed.
Definition others : R := rsum K (fun j => if (j =? k)%nat then 0 else a j).
Lemma others_nonneg : 0 <= others.
Proof. apply rsum_nonneg. intros j _. destruct (j =? k)%nat; [lra|left; apply a_pos]. Qed.
Definition gg (x : R) : R := exp (- (others * tt_ x)).
Lemma gg_prod x : gg x = rprod K (fun j => if (j =? k)%nat then 1 else exp (- (a j * tt_ x))).
Proof.
  unfold gg, others. rewrite (rprod_ext K _ (fun j => exp ((if (j =? k)%nat then 0 else a j) * (- tt_ x)))).
  - rewrite <- exp_rsum. f_equal. rewrite (rsum_scal_r (- tt_ x)). ring.
  - intros j _. destruct (j =? k)%nat; [rewrite Rmult_0_l, exp_0; reflexivity|]. f_equal. ring.
Qed.
Lemma exp_neg_range y : 0 <= y -> 0 <= exp (- y) <= 1.
Proof. intros Hy. split; [left; apply exp_pos|]. rewrite <- exp_0. destruct (Req_dec y 0) as [->|]; [rewrite Ropp_0; lra|]. left. apply exp_increasing. lra. Qed.
Lemma phi_near x : 0 <= x <= 1 -> Rabs (phi x - gg x) <= INR K * eps.
Proof.
  intros Hx. pose proof eps_pos. pose proof (tt_pos x Hx) as Ht. rewrite gg_prod. apply rprod_near; [lra|]. intros j _. destruct (j =? k)%nat.
  - rewrite Rminus_eq_0, Rabs_R0. repeat split; lra.
  - pose proof (a_pos j) as Ha. assert (Hy: 0 <= a j * tt_ x) by (apply Rmult_le_pos; lra). pose proof (exp_neg_range _ Hy) as R1. pose proof (clip_range (thr j x)) as R2.
    split; [auto|split; [auto|]]. apply clip_near; auto; [lra|]. unfold thr. replace (eps - a j * tt_ x) with (eps + - (a j * tt_ x)) by ring. rewrite exp_plus.
    pose proof exp_eps. assert (1 <= exp eps) by (pose proof (exp_ineq1_le eps); lra). apply Rabs_le. set (y := exp (- (a j * tt_ x))) in *. split; nra.
Qed.
Definition GG (x : R) : R := / (1 + others) * exp (eps - (1 + others) * tt_ x).
Lemma GG_deriv x : 0 <= x -> derivable_pt_lim GG x (gg x).
Proof.
  intros Hx. pose proof eps_pos. pose proof others_nonneg as Ho.
  assert (Dt: derivable_pt_lim tt_ x (- (/ (x + eps)))).
  { unfold tt_. replace (- / (x + eps)) with (- (/ (x + eps) * (1 + 0)) + 0) by ring.
    apply (derivable_pt_lim_plus (fun y => - ln (y + eps)) (fun _ => eps)); [|apply derivable_pt_lim_const].
    apply (derivable_pt_lim_opp (fun y => ln (y + eps))). apply (derivable_pt_lim_comp (fun y => y + eps) ln).
    - apply (derivable_pt_lim_plus (fun y => y) (fun _ => eps)); [apply derivable_pt_lim_id|apply derivable_pt_lim_const].
    - apply derivable_pt_lim_ln. lra. }
  assert (Di: derivable_pt_lim (fun y => eps - (1 + others) * tt_ y) x ((1 + others) / (x + eps))).
  { replace ((1 + others) / (x + eps)) with (0 - (1 + others) * (- (/ (x + eps)))) by (field; lra).
    apply (derivable_pt_lim_minus (fun _ => eps) (fun y => (1 + others) * tt_ y)); [apply derivable_pt_lim_const|]. apply (derivable_pt_lim_scal tt_). exact Dt. }
  replace (gg x) with (/ (1 + others) * (exp (eps - (1 + others) * tt_ x) * ((1 + others) / (x + eps)))).
  - apply (derivable_pt_lim_scal (fun y => exp (eps - (1 + others) * tt_ y))). apply (derivable_pt_lim_comp (fun y => eps - (1 + others) * tt_ y) exp); auto. apply derivable_pt_lim_exp.
  - unfold gg. replace (eps - (1 + others) * tt_ x) with (- (others * tt_ x) + (eps - tt_ x)) by ring. rewrite exp_plus, exp_tt by auto. field. split; lra.
Qed.
Lemma gg_inc x y : 0 <= x -> x <= y -> gg x <= gg y.
Proof.
  intros Hx Hxy. destruct (Req_dec x y) as [->|]; [lra|]. pose proof (tt_dec x y Hx ltac:(lra)). pose proof others_nonneg. unfold gg.
  assert (E: - (others * tt_ x) <= - (others * tt_ y)) by nra. destruct E as [E| ->]; [left; apply exp_increasing; exact E|lra].
Qed.
Lemma gg_range x : 0 <= x <= 1 -> 0 <= gg x <= 1.
Proof. intros Hx. pose proof (tt_pos x Hx). pose proof others_nonneg. apply exp_neg_range. apply Rmult_le_pos; lra. Qed.
Lemma GG_sums M : (0 < M)%nat ->
  rsum M (fun i => gg (INR i / INR M) / INR M) <= GG 1 - GG 0 <= rsum M (fun i => gg (INR (S i) / INR M) / INR M).
Proof.
  intros HM. assert (P: 0 < INR M) by (apply lt_0_INR; auto).
  assert (S1: GG 1 - GG 0 = rsum M (fun i => GG (INR (S i) / INR M) - GG (INR i / INR M))).
  { rewrite (rsum_minus M (fun i => GG (INR (S i) / INR M)) (fun i => GG (INR i / INR M))). rewrite (sum_step (fun i => GG (INR i / INR M))). replace (INR M / INR M) with 1 by (field; lra). replace (INR 0 / INR M) with 0 by (simpl; field; lra). ring. }
  assert (S2: forall i, (i < M)%nat -> gg (INR i / INR M) / INR M <= GG (INR (S i) / INR M) - GG (INR i / INR M) <= gg (INR (S i) / INR M) / INR M).
  { intros i Hi. pose proof (frac_range M i ltac:(lia) HM) as R1. pose proof (frac_range M (S i) ltac:(lia) HM) as R2.
    assert (D: INR (S i) / INR M - INR i / INR M = / INR M) by (rewrite S_INR; field; lra). assert (0 < / INR M) by (apply Rinv_0_lt_compat; auto).
    destruct (MVT_cor2 GG gg (INR i / INR M) (INR (S i) / INR M) ltac:(lra)) as (c & E & Hc).
    { intros c Hc. apply GG_deriv. lra. }
    rewrite E, D. pose proof (gg_inc (INR i / INR M) c ltac:(lra) ltac:(lra)). pose proof (gg_inc c (INR (S i) / INR M) ltac:(lra) ltac:(lra)). unfold Rdiv at 1 4. split; apply Rmult_le_compat_r; lra. }
  rewrite S1. split; apply rsum_le; intros i Hi; apply S2; auto.
Qed.
Lemma GG_value : Rabs (GG 1 - GG 0 - / (1 + others)) <= 2 * eps.
Proof.
  pose proof eps_pos as He. pose proof eps_small. pose proof others_nonneg as Ho. assert (Pi: 0 < / (1 + others)) by (apply Rinv_0_lt_compat; lra).
  assert (Pi1: / (1 + others) <= 1) by (rewrite <- Rinv_1; apply Rinv_le_contravar; lra).
  pose proof (tt_pos 1 ltac:(lra)) as T1. assert (T1': tt_ 1 <= eps). { unfold tt_. assert (0 < ln (1 + eps)) by (rewrite <- ln_1; apply ln_increasing; lra). lra. }
  assert (G0: 0 <= GG 0 <= eps).
  { unfold GG. replace (eps - (1 + others) * tt_ 0) with (- (others * tt_ 0) + (eps - tt_ 0)) by ring. rewrite exp_plus, exp_tt by lra. rewrite (Rmult_comm (/ _)). pose proof (gg_range 0 ltac:(lra)) as G. unfold gg in G. set (y := exp (- (others * tt_ 0))) in *. unfold Rdiv.
    assert (0 <= y * / (1 + others) <= 1) by (split; [apply Rmult_le_pos; lra|nra]). replace (y * (0 + eps) * / (1 + others)) with ((y * / (1 + others)) * eps) by ring. nra. }
  assert (G1: / (1 + others) - eps <= GG 1 <= / (1 + others) + 2 * eps).
  { unfold GG. rewrite (Rmult_comm (/ _)). split.
    - pose proof (exp_ineq1_le (eps - (1 + others) * tt_ 1)) as E. apply Rle_trans with ((1 + (eps - (1 + others) * tt_ 1)) * / (1 + others)); [|apply Rmult_le_compat_r; lra].
      replace ((1 + (eps - (1 + others) * tt_ 1)) * / (1 + others)) with (/ (1 + others) + eps * / (1 + others) - tt_ 1) by (field; lra). assert (0 <= eps * / (1 + others)) by (apply Rmult_le_pos; lra). lra.
    - assert (E: exp (eps - (1 + others) * tt_ 1) <= exp eps). { left. apply exp_increasing. assert (0 < (1 + others) * tt_ 1) by (apply Rmult_lt_0_compat; lra). lra. }
      pose proof exp_eps. apply Rle_trans with ((1 + 2 * eps) * / (1 + others)); [apply Rmult_le_compat_r; lra|]. nra. }
  apply Rabs_le. lra.
Qed.
Lemma softmax_others : / (1 + others) = exp (w k) / rsum K (fun j => exp (w j)).
Proof.
  assert (E: rsum K (fun j => exp (w j)) = exp (w k) * (1 + others)).
  { transitivity (rsum K (fun j => exp (w k) * ((if (j =? k)%nat then 1 else 0) + (if (j =? k)%nat then 0 else a j)))).
    - apply rsum_ext. intros j _. destruct (Nat.eqb_spec j k) as [->|]; [ring|]. unfold a. rewrite Rplus_0_l, <- exp_plus. f_equal. ring.
    - rewrite rsum_scal_l. f_equal. rewrite rsum_plus. unfold others. f_equal. rewrite (rsum_single K k); [rewrite Nat.eqb_refl; reflexivity|exact Hk|]. intros j _ Hne. destruct (Nat.eqb_spec j k); [contradiction|auto]. }
  rewrite E. pose proof (exp_pos (w k)). pose proof others_nonneg. field. split; lra.
Qed.
Lemma limit_le x y : (forall M, (0 < M)%nat -> x <= y + / INR M) -> x <= y.
Proof.
  intros H. apply Rnot_lt_le. intros C. destruct (archimed_cor1 (x - y) ltac:(lra)) as (M & HM & HM0). specialize (H M HM0). lra.
Qed.
Theorem wins_softmax : {p : R | content sites wins p /\ Rabs (p - exp (w k) / rsum K (fun j => exp (w j))) <= (INR K + 2) * eps}.
Proof.
  destruct wins_content as (p & Hp & B). exists p. split; auto. rewrite <- softmax_others. pose proof GG_value as V.
  assert (Near: forall (f : nat -> nat) M, (forall i, (i < M)%nat -> (f i <= M)%nat) -> (0 < M)%nat -> Rabs (rsum M (fun i => phi (INR (f i) / INR M) / INR M) - rsum M (fun i => gg (INR (f i) / INR M) / INR M)) <= INR K * eps).
  { intros f M Hf HM. assert (P: 0 < INR M) by (apply lt_0_INR; auto). assert (Pi: 0 < / INR M) by (apply Rinv_0_lt_compat; auto). rewrite <- rsum_minus.
    assert (N: forall i, (i < M)%nat -> - (INR K * eps) * / INR M <= phi (INR (f i) / INR M) / INR M - gg (INR (f i) / INR M) / INR M <= (INR K * eps) * / INR M).
    { intros i Hi. pose proof (phi_near (INR (f i) / INR M) (frac_range M (f i) (Hf i Hi) HM)) as N. set (x := INR (f i) / INR M) in *.
      replace (phi x / INR M - gg x / INR M) with ((phi x - gg x) * / INR M) by (field; lra). revert N. set (q := phi _ - gg _). intros N. assert (- (INR K * eps) <= q <= INR K * eps) by (revert N; unfold Rabs; destruct (Rcase_abs q); lra).
      split; apply Rmult_le_compat_r; lra. }
    assert (Q: forall c, rsum M (fun _ => c * / INR M) = c) by (intros c; rewrite rsum_const; field; lra).
    apply Rabs_le. split.
    - rewrite <- (Q (- (INR K * eps))). apply rsum_le. intros i Hi. apply N; auto.
    - rewrite <- (Q (INR K * eps)). apply rsum_le. intros i Hi. apply N; auto. }
  assert (Step: forall M, (0 < M)%nat -> rsum M (fun i => gg (INR (S i) / INR M) / INR M) <= rsum M (fun i => gg (INR i / INR M) / INR M) + / INR M).
  { intros M HM. assert (Pi: 0 < / INR M) by (apply Rinv_0_lt_compat, lt_0_INR; auto). rewrite (sum_step (fun i => gg (INR i / INR M) / INR M)).
    pose proof (gg_range (INR M / INR M) (frac_range M M ltac:(lia) HM)). pose proof (gg_range (INR 0 / INR M) (frac_range M 0 ltac:(lia) HM)). unfold Rdiv in *. nra. }
  assert (U: p <= GG 1 - GG 0 + INR K * eps).
  { apply limit_le. intros M HM. destruct (B M HM) as [_ B2]. pose proof (Near S M ltac:(intros; lia) HM) as N. destruct (GG_sums M HM) as [G1 _]. specialize (Step M HM).
    revert N. unfold Rabs. destruct (Rcase_abs _); lra. }
  assert (D: GG 1 - GG 0 <= p + INR K * eps).
  { apply limit_le. intros M HM. destruct (B M HM) as [B1 _]. pose proof (Near (fun i => i) M ltac:(intros; lia) HM) as N. destruct (GG_sums M HM) as [_ G2]. specialize (Step M HM).
    revert N. cbv beta. unfold Rabs. destruct (Rcase_abs _); lra. }
  apply Rabs_le. revert V. unfold Rabs. destruct (Rcase_abs _); lra.
Qed.
End Choice.
