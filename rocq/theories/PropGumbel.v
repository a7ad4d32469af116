(** Theorems about the law of the Gumbel-max draws of differentiable sampling (C56).

    Probability over the uniform draws is Jordan content: [content I A p] says that the set A of
    assignments of numbers in [0, 1) to the entries I can be filled by disjoint boxes and covered by
    boxes of total volumes arbitrarily close to p (Content.v). *)
From Coq Require Import List Arith Lia Bool Reals Lra.
Import ListNotations.
From Verif Require Import Base RSum Num Tensor Diff RefDiff PropDiff Content RefGumbel.
Local Open Scope R_scope.
Local Arguments Nat.div : simpl never.
Local Arguments Nat.modulo : simpl never.
Local Arguments Nat.sub : simpl never.
Local Arguments Nat.mul : simpl never.
Local Arguments Nat.add : simpl never.

(** The entries of a torch.rand tensor of shape (N, D, K). *)
Definition entries (N D K : nat) : list entry_of :=
  flat_map (fun n => flat_map (fun d => map (fun k => [n; d; k]) (seq 0 K)) (seq 0 D)) (seq 0 N).
(** SIMPLE without mpe returns the one-hot rows of [kt]. *)
Definition draws_rows (lw : tensor num) (N D K : nat) (kt : nat -> nat -> nat) (u : entry_of -> R) : Prop :=
  exists oh, SIMPLE u false lw 2 = Ok oh /\ forall n d k, (n < N)%nat -> (d < D)%nat -> (k < K)%nat ->
    get oh [n; d; k] = Fin (if (k =? kt n d)%nat then 1 else 0).
Definition softmax_at (lw : tensor num) (K n d k : nat) : R := exp (toR (get lw [n; d; k])) / rsum K (fun j => exp (toR (get lw [n; d; j]))).

Lemma nodup_flat_map {X Y} (f : X -> list Y) L : NoDup L -> (forall x, In x L -> NoDup (f x)) ->
  (forall x y i, In x L -> In y L -> In i (f x) -> In i (f y) -> x = y) -> NoDup (flat_map f L).
Proof.
  induction L as [|x L IH]; intros HL Hf Hd; [constructor|]. inversion HL; subst. cbn [flat_map].
  assert (G: forall l1 l2 : list Y, NoDup l1 -> NoDup l2 -> (forall i, In i l1 -> In i l2 -> False) -> NoDup (l1 ++ l2)).
  { induction l1 as [|y l1 IH1]; intros l2 N1 N2 H; auto. inversion N1; subst. cbn [app]. constructor; [|apply IH1; auto; intros i Hi; apply H; right; auto].
    rewrite in_app_iff. intros [C|C]; [auto|]. apply (H y); [left; auto|auto]. }
  apply G; [apply Hf; left; auto|apply IH; auto; [intros; apply Hf; right; auto|intros y z i Hy Hz; apply Hd; right; auto]|].
  intros i Hi Hi'. apply in_flat_map in Hi' as (y & Hy & Hi'). assert (x = y) as -> by (apply (Hd x y i); auto; [left; auto|right; auto]). auto.
Qed.
Lemma nodup_rows n d K : NoDup (map (fun k => [n; d; k]) (seq 0 K)).
Proof. apply (sites_nodup K (fun k => [n; d; k])). intros i j _ _ E. congruence. Qed.
Lemma nodup_entries N D K : NoDup (entries N D K).
Proof.
  apply nodup_flat_map; [apply seq_NoDup| |].
  - intros n _. apply nodup_flat_map; [apply seq_NoDup|intros; apply nodup_rows|]. intros x y i _ _ H1 H2. apply in_map_iff in H1 as (? & <- & _). apply in_map_iff in H2 as (? & E & _). congruence.
  - intros x y i _ _ H1 H2. apply in_flat_map in H1 as (? & _ & H1). apply in_flat_map in H2 as (? & _ & H2). apply in_map_iff in H1 as (? & <- & _). apply in_map_iff in H2 as (? & E & _). congruence.
Qed.
Lemma in_entries N D K n d k : (n < N)%nat -> (d < D)%nat -> (k < K)%nat -> In [n; d; k] (entries N D K).
Proof.
  intros Hn Hd Hk. apply in_flat_map. exists n. split; [apply in_seq; lia|]. apply in_flat_map. exists d. split; [apply in_seq; lia|]. apply in_map_iff. exists k. split; auto. apply in_seq; lia.
Qed.

(** * The drawn rows *)
(** For finite log weights of shape (N, D, K): there are probabilities p over the K indices of every
    row, within (K + 2) 1e-20 of the softmax of the row, such that the rows drawn by SIMPLE are
    independent and follow them. *)
Theorem C56_rows : forall (lw : tensor num) N D K, (0 < K)%nat -> shape lw = [N; D; K] ->
  (forall n d k, (n < N)%nat -> (d < D)%nat -> (k < K)%nat -> isfin (get lw [n; d; k]) = true) ->
  exists p : nat -> nat -> nat -> R,
    (forall n d, (n < N)%nat -> (d < D)%nat ->
       rsum K (p n d) = 1 /\ forall k, (k < K)%nat -> 0 <= p n d k /\ Rabs (p n d k - softmax_at lw K n d k) <= (INR K + 2) * / 10 ^ 20) /\
    forall kt, (forall n d, (n < N)%nat -> (d < D)%nat -> (kt n d < K)%nat) ->
      content (entries N D K) (draws_rows lw N D K kt) (rprod N (fun n => rprod D (fun d => p n d (kt n d)))).
Proof.
  intros lw N D K HK Sl Hf. set (w := fun n d k => toR (get lw [n; d; k])).
  assert (Inj: forall n d i j : nat, (i < K)%nat -> (j < K)%nat -> [n; d; i] = [n; d; j] -> i = j) by (intros; congruence).
  assert (q0: forall n d k, (k < K)%nat -> {p : R | content (sites K (fun k => [n; d; k])) (wins K (w n d) k (fun k => [n; d; k])) p /\
    Rabs (p - softmax_at lw K n d k) <= (INR K + 2) * eps}) by (intros n d k Hk; exact (wins_softmax K (w n d) k Hk (fun k => [n; d; k]) (Inj n d))).
  set (q := fun n d k => match lt_dec k K with left H => proj1_sig (q0 n d k H) | right _ => 0 end).
  assert (Hq: forall n d k, (k < K)%nat -> content (sites K (fun k => [n; d; k])) (wins K (w n d) k (fun k => [n; d; k])) (q n d k) /\
    Rabs (q n d k - softmax_at lw K n d k) <= (INR K + 2) * eps).
  { intros n d k Hk. unfold q. destruct (lt_dec k K) as [H|]; [|contradiction]. apply (proj2_sig (q0 n d k H)). }
  clearbody q. clear q0. exists q. split.
  - intros n d Hn Hd. split.
    + apply (content_partition (sites K (fun k => [n; d; k])) K (fun k => wins K (w n d) k (fun k => [n; d; k]))).
      * apply sites_nodup. apply Inj.
      * intros k Hk. apply Hq. auto.
      * intros u j k _ _ _ H1 H2. unfold wins in *. congruence.
      * intros u _. eexists. split; [|unfold wins; reflexivity]. apply nargmax_lt; auto.
    + intros k Hk. destruct (Hq n d k Hk) as [H1 H2]. split; [|exact H2].
      eapply content_range; [|exact H1]. apply sites_nodup. apply Inj.
  - intros kt Hkt. apply content_ext with (A := fun u => forall n, In n (seq 0 N) -> forall d, In d (seq 0 D) -> wins K (w n d) (kt n d) (fun k => [n; d; k]) u).
    + intros u Hu. assert (Hu': forall n d k, (n < N)%nat -> (d < D)%nat -> (k < K)%nat -> 0 <= u [n; d; k] < 1) by (intros; apply Hu, in_entries; auto).
      destruct (simple_argmax u false lw N D K HK Sl Hu' Hf) as (oh & E & _ & G). split.
      * intros H. exists oh. split; auto. intros n d k Hn Hd Hk. rewrite G by auto. specialize (H n ltac:(apply in_seq; lia) d ltac:(apply in_seq; lia)). unfold wins, w in H. rewrite H. destruct (k =? kt n d)%nat; reflexivity.
      * intros (oh' & E' & G') n Hn d Hd. rewrite E in E'. injection E' as <-. apply in_seq in Hn, Hd. specialize (Hkt n d ltac:(lia) ltac:(lia)).
        specialize (G n d ltac:(lia) ltac:(lia) (kt n d) Hkt). rewrite G' in G by lia. rewrite Nat.eqb_refl in G. unfold wins, w.
        destruct (Nat.eqb_spec (kt n d) (nargmax K (fun k => Fin (toR (get lw [n; d; k]) + rgumbel (u [n; d; k]))))) as [E2|]; [auto|]. injection G as G. lra.
    + unfold entries. apply (content_family (seq 0 N) (fun n => flat_map (fun d => map (fun k => [n; d; k]) (seq 0 K)) (seq 0 D)) (fun n u => forall d, In d (seq 0 D) -> wins K (w n d) (kt n d) (fun k => [n; d; k]) u) (fun n => rprod D (fun d => q n d (kt n d)))); [apply nodup_entries|].
      intros n Hn. apply in_seq in Hn. apply (content_family (seq 0 D) (fun d => map (fun k => [n; d; k]) (seq 0 K)) (fun d => wins K (w n d) (kt n d) (fun k => [n; d; k])) (fun d => q n d (kt n d))).
      * apply nodup_flat_map; [apply seq_NoDup|intros; apply nodup_rows|]. intros x y i _ _ H1 H2. apply in_map_iff in H1 as (? & <- & _). apply in_map_iff in H2 as (? & E & _). congruence.
      * intros d Hd. apply in_seq in Hd. apply (Hq n d (kt n d)). cbn [snd]. apply Hkt; lia.
Qed.
Print Assumptions C56_rows.

(** The probability of a whole tensor of rows. *)
Theorem C56_joint : forall (lw : tensor num) N D K kt, (0 < K)%nat -> shape lw = [N; D; K] ->
  (forall n d k, (n < N)%nat -> (d < D)%nat -> (k < K)%nat -> isfin (get lw [n; d; k]) = true) ->
  (forall n d, (n < N)%nat -> (d < D)%nat -> (kt n d < K)%nat) ->
  exists v, content (entries N D K) (draws_rows lw N D K kt) v /\
    Rabs (v - rprod N (fun n => rprod D (fun d => softmax_at lw K n d (kt n d)))) <= INR N * (INR D * ((INR K + 2) * / 10 ^ 20)).
Proof.
  intros lw N D K kt HK Sl Hf Hkt. destruct (C56_rows lw N D K HK Sl Hf) as (p & Hp & C). eexists. split; [apply C; auto|].
  pose proof eps_pos as He. unfold eps in He. pose proof (pos_INR K). pose proof (pos_INR D).
  assert (S1: forall n d, (kt n d < K)%nat -> 0 <= softmax_at lw K n d (kt n d) <= 1).
  { intros n d Hk. unfold softmax_at. rewrite <- (softmax_others K (fun j => toR (get lw [n; d; j])) (kt n d) Hk). set (s := others _ _ _).
    assert (0 <= s) by apply others_nonneg. split; [left; apply Rinv_0_lt_compat; lra|]. rewrite <- Rinv_1. apply Rinv_le_contravar; lra. }
  assert (P1: forall n d, (n < N)%nat -> (d < D)%nat -> 0 <= p n d (kt n d) <= 1).
  { intros n d Hn Hd. destruct (Hp n d Hn Hd) as [Hs H1]. split; [apply H1; auto|]. rewrite <- Hs.
    rewrite <- (Rmult_1_r (p n d (kt n d))). apply Rle_trans with (rsum K (fun j => if (j =? kt n d)%nat then p n d j else 0)).
    - rewrite (rsum_single K (kt n d)); [rewrite Nat.eqb_refl; lra|auto|]. intros j _ Hne. destruct (Nat.eqb_spec j (kt n d)); [contradiction|auto].
    - apply rsum_le. intros j Hj. destruct (j =? kt n d)%nat; [lra|]. apply H1; auto. }
  apply rprod_near; [apply Rmult_le_pos; [auto|apply Rmult_le_pos; lra]|]. intros n Hn.
  split; [|split].
  - split; [apply rprod_nonneg; intros d Hd; apply P1; auto|]. apply Rle_trans with (rprod D (fun _ => 1)); [|rewrite rprod_one; lra]. apply rprod_le. intros d Hd. apply P1; auto.
  - split; [apply rprod_nonneg; intros d Hd; apply S1; auto|]. apply Rle_trans with (rprod D (fun _ => 1)); [|rewrite rprod_one; lra]. apply rprod_le. intros d Hd. apply S1; auto.
  - apply rprod_near; [apply Rmult_le_pos; lra|]. intros d Hd. split; [apply P1; auto|]. split; [apply S1; auto|]. apply Hp; auto.
Qed.
Print Assumptions C56_joint.

(** Two rows of a (2, 1, 2) tensor with the probabilities 1/4 and 3/4: both rows draw index 1 with a
    probability within 8e-20 of 9/16. *)
Example C56_ex : let lw : tensor num := mkT [2; 1; 2]%nat (fun idx => if (nth 2 idx 0 =? 0)%nat then Fin 0 else Fin (ln 3)) in
  exists v, content (entries 2 1 2) (draws_rows lw 2 1 2 (fun _ _ => 1%nat)) v /\ Rabs (v - 9 / 16) <= 8 * / 10 ^ 20.
Proof.
  intros lw. destruct (C56_joint lw 2 1 2 (fun _ _ => 1%nat)) as (v & C & B); auto.
  - intros n d k _ _ _. unfold lw. cbn [get nth]. destruct (k =? 0)%nat; reflexivity.
  - exists v. split; auto. replace (9 / 16) with (rprod 2 (fun n => rprod 1 (fun d => softmax_at lw 2 n d 1))).
    + replace (8 * / 10 ^ 20) with (INR 2 * (INR 1 * ((INR 2 + 2) * / 10 ^ 20))); auto. simpl INR. ring.
    + unfold softmax_at, rprod, rsum, lw. cbn [seq lprod lsum get nth Nat.eqb toR]. rewrite exp_0, exp_ln by lra. field.
Qed.
