(** Layered sum-product circuits on reals, independent of tensors.

    A layer turns values [v d s r] (input feature, channel, repetition) into values of output
    features: each output node is a weighted sum of [uK] products, one factor per child feature.
    This file proves the textbook facts about such circuits.  [Refine*.v] shows that the tensor
    programs compute them. *)
From Coq Require Import List Arith Lia Bool Reals Lra.
Import ListNotations.
From Verif Require Import Base RSum.
Local Open Scope R_scope.

Definition vals := nat -> nat -> nat -> R.

Record ulayer : Type := mkU {
  uDin : nat; uDout : nat; uSin : nat; uSout : nat;
  uK : nat;                                  (* number of products per sum node *)
  uW : nat -> nat -> nat -> nat -> R;        (* weight of product k at node (d, o, r) *)
  ukids : nat -> list nat;                   (* child features of output feature d *)
  usel : nat -> nat -> nat -> nat -> nat;    (* channel of child d' in product k of node (d, o) *)
  upar : nat -> nat }.                       (* parent of a child feature *)

Definition uprod (U : ulayer) (v : vals) (d o r k : nat) : R :=
  lprod (fun d' => v d' (usel U d o k d') r) (ukids U d).
Definition ueval (U : ulayer) (v : vals) : vals :=
  fun d o r => rsum (uK U) (fun k => uW U d o r k * uprod U v d o r k).

(** Well-formedness: children of distinct outputs are disjoint and cover the inputs
    (decomposability), all products of a node have the same children (smoothness), the weights
    form a positive probability vector. *)
Record uwf (Rn : nat) (U : ulayer) : Prop := {
  uw_nodup : forall d, (d < uDout U)%nat -> NoDup (ukids U d);
  uw_kids : forall d d', (d < uDout U)%nat -> (In d' (ukids U d) <-> (d' < uDin U)%nat /\ upar U d' = d);
  uw_par : forall d', (d' < uDin U)%nat -> (upar U d' < uDout U)%nat;
  uw_sel : forall d o k d', (d < uDout U)%nat -> (o < uSout U)%nat -> (k < uK U)%nat -> In d' (ukids U d) ->
             (usel U d o k d' < uSin U)%nat;
  uw_pos : forall d o r k, (d < uDout U)%nat -> (o < uSout U)%nat -> (r < Rn)%nat -> (k < uK U)%nat -> 0 < uW U d o r k;
  uw_sum : forall d o r, (d < uDout U)%nat -> (o < uSout U)%nat -> (r < Rn)%nat -> rsum (uK U) (uW U d o r) = 1 }.

Fixpoint uchain (Rn : nat) (ls : list ulayer) (D S D' S' : nat) : Prop :=
  match ls with
  | [] => D = D' /\ S = S'
  | U :: ls' => uwf Rn U /\ uDin U = D /\ uSin U = S /\ uchain Rn ls' (uDout U) (uSout U) D' S'
  end.
Definition evals (ls : list ulayer) (v : vals) : vals := fold_left (fun v U => ueval U v) ls v.
Definition owner (ls : list ulayer) (d : nat) : nat := fold_left (fun d U => upar U d) ls d.

Lemma uchain_app Rn ls1 : forall ls2 D S D' S',
  uchain Rn (ls1 ++ ls2) D S D' S' <-> exists D1 S1, uchain Rn ls1 D S D1 S1 /\ uchain Rn ls2 D1 S1 D' S'.
Proof.
  induction ls1 as [|U ls1 IH]; simpl; intros.
  - split; [intros; exists D, S; auto|]. intros (D1 & S1 & [-> ->] & H). auto.
  - rewrite IH. split.
    + intros (H1 & H2 & H3 & D1 & S1 & H4 & H5). exists D1, S1. auto.
    + intros (D1 & S1 & (H1 & H2 & H3 & H4) & H5). split; [auto|split; [auto|split; [auto|exists D1, S1; auto]]].
Qed.
Lemma evals_app ls1 ls2 v : evals (ls1 ++ ls2) v = evals ls2 (evals ls1 v).
Proof. unfold evals. apply fold_left_app. Qed.

Lemma uw_K_pos Rn U d o r : uwf Rn U -> (d < uDout U)%nat -> (o < uSout U)%nat -> (r < Rn)%nat -> (0 < uK U)%nat.
Proof.
  intros H Hd Ho Hr. pose proof (uw_sum _ _ H d o r Hd Ho Hr) as E.
  destruct (uK U); [|lia]. rewrite rsum_0 in E. lra.
Qed.

(** Agreement of values on a range. *)
Definition vagree (D S Rn : nat) (v v' : vals) : Prop :=
  forall d s r, (d < D)%nat -> (s < S)%nat -> (r < Rn)%nat -> v d s r = v' d s r.

Lemma uprod_ext Rn U v v' : uwf Rn U -> vagree (uDin U) (uSin U) Rn v v' ->
  forall d o r k, (d < uDout U)%nat -> (o < uSout U)%nat -> (r < Rn)%nat -> (k < uK U)%nat ->
  uprod U v d o r k = uprod U v' d o r k.
Proof.
  intros Hw Hv d o r k Hd Ho Hr Hk. unfold uprod. apply lprod_ext. intros d' Hin.
  apply Hv; auto. - apply (uw_kids _ _ Hw d d' Hd); auto. - apply (uw_sel _ _ Hw); auto.
Qed.
Lemma ueval_ext Rn U v v' : uwf Rn U -> vagree (uDin U) (uSin U) Rn v v' ->
  vagree (uDout U) (uSout U) Rn (ueval U v) (ueval U v').
Proof.
  intros Hw Hv d o r Hd Ho Hr. unfold ueval. apply rsum_ext. intros k Hk.
  rewrite (uprod_ext Rn U v v'); auto.
Qed.
Lemma evals_ext Rn ls : forall D S D' S' v v', uchain Rn ls D S D' S' -> vagree D S Rn v v' ->
  vagree D' S' Rn (evals ls v) (evals ls v').
Proof.
  induction ls as [|U ls IH]; simpl; intros D S D' S' v v' Hc Hv.
  - destruct Hc as [<- <-]. auto.
  - destruct Hc as (Hw & <- & <- & Hc). unfold evals. simpl. eapply IH; eauto. eapply ueval_ext; eauto.
Qed.

(** Positivity. *)
Definition vpos (D S Rn : nat) (v : vals) : Prop :=
  forall d s r, (d < D)%nat -> (s < S)%nat -> (r < Rn)%nat -> 0 < v d s r.
Lemma uprod_pos Rn U v : uwf Rn U -> vpos (uDin U) (uSin U) Rn v ->
  forall d o r k, (d < uDout U)%nat -> (o < uSout U)%nat -> (r < Rn)%nat -> (k < uK U)%nat -> 0 < uprod U v d o r k.
Proof.
  intros Hw Hv d o r k Hd Ho Hr Hk. apply lprod_pos. intros d' Hin. apply Hv; auto.
  - apply (uw_kids _ _ Hw d d' Hd); auto. - apply (uw_sel _ _ Hw); auto.
Qed.
Lemma ueval_pos Rn U v : uwf Rn U -> vpos (uDin U) (uSin U) Rn v -> vpos (uDout U) (uSout U) Rn (ueval U v).
Proof.
  intros Hw Hv d o r Hd Ho Hr. apply rsum_pos; [eapply uw_K_pos; eauto|].
  intros k Hk. apply Rmult_lt_0_compat; [eapply uw_pos; eauto|eapply uprod_pos; eauto].
Qed.
Lemma evals_pos Rn ls : forall D S D' S' v, uchain Rn ls D S D' S' -> vpos D S Rn v -> vpos D' S' Rn (evals ls v).
Proof.
  induction ls as [|U ls IH]; simpl; intros D S D' S' v Hc Hv.
  - destruct Hc as [<- <-]. auto.
  - destruct Hc as (Hw & <- & <- & Hc). unfold evals; simpl. eapply IH; eauto. eapply ueval_pos; eauto.
Qed.

(** All leaf values one: every node is one. *)
Lemma ueval_one Rn U v : uwf Rn U -> vagree (uDin U) (uSin U) Rn v (fun _ _ _ => 1) ->
  vagree (uDout U) (uSout U) Rn (ueval U v) (fun _ _ _ => 1).
Proof.
  intros Hw Hv d o r Hd Ho Hr. rewrite (ueval_ext Rn U v (fun _ _ _ => 1)); auto.
  unfold ueval, uprod. rewrite lprod_one. rewrite rsum_scal_r. rewrite (uw_sum _ _ Hw); auto. lra.
Qed.
Lemma evals_one Rn ls : forall D S D' S' v, uchain Rn ls D S D' S' ->
  vagree D S Rn v (fun _ _ _ => 1) -> vagree D' S' Rn (evals ls v) (fun _ _ _ => 1).
Proof.
  induction ls as [|U ls IH]; simpl; intros D S D' S' v Hc Hv.
  - destruct Hc as [<- <-]. auto.
  - destruct Hc as (Hw & <- & <- & Hc). unfold evals; simpl. eapply IH; eauto. eapply ueval_one; eauto.
Qed.

(** Monotonicity in the leaf values. *)
Definition vle (D S Rn : nat) (v v' : vals) : Prop :=
  forall d s r, (d < D)%nat -> (s < S)%nat -> (r < Rn)%nat -> 0 <= v d s r <= v' d s r.
Lemma ueval_mono Rn U v v' : uwf Rn U -> vle (uDin U) (uSin U) Rn v v' ->
  vle (uDout U) (uSout U) Rn (ueval U v) (ueval U v').
Proof.
  intros Hw Hv d o r Hd Ho Hr.
  assert (P: forall k, (k < uK U)%nat -> 0 <= uprod U v d o r k <= uprod U v' d o r k).
  { intros k Hk. unfold uprod. split.
    - apply lprod_nonneg. intros d' Hin. apply Hv; auto.
      + apply (uw_kids _ _ Hw d d' Hd); auto. + apply (uw_sel _ _ Hw); auto.
    - apply lprod_le. intros d' Hin. apply Hv; auto.
      + apply (uw_kids _ _ Hw d d' Hd); auto. + apply (uw_sel _ _ Hw); auto. }
  split.
  - apply rsum_nonneg. intros k Hk. apply Rmult_le_pos; [left; eapply uw_pos; eauto|apply P; auto].
  - apply rsum_le. intros k Hk. apply Rmult_le_compat_l; [left; eapply uw_pos; eauto|apply P; auto].
Qed.
Lemma evals_mono Rn ls : forall D S D' S' v v', uchain Rn ls D S D' S' -> vle D S Rn v v' ->
  vle D' S' Rn (evals ls v) (evals ls v').
Proof.
  induction ls as [|U ls IH]; simpl; intros D S D' S' v v' Hc Hv.
  - destruct Hc as [<- <-]. auto.
  - destruct Hc as (Hw & <- & <- & Hc). unfold evals; simpl. eapply IH; eauto. eapply ueval_mono; eauto.
Qed.

(** * Linearity in the values of one leaf block *)

Lemma lprod_isolate (f : nat -> R) l x : NoDup l -> In x l ->
  lprod f l = f x * lprod (fun y => if Nat.eqb y x then 1 else f y) l.
Proof.
  induction l as [|a l IH]; simpl; intros Hn Hin; [tauto|].
  inversion Hn; subst. destruct Hin as [->|Hin].
  - rewrite Nat.eqb_refl.
    rewrite (lprod_ext (fun y => if Nat.eqb y x then 1 else f y) f); [lra|].
    intros y Hy. destruct (Nat.eqb_spec y x); auto. subst. contradiction.
  - destruct (Nat.eqb_spec a x); [subst; contradiction|]. rewrite (IH H2 Hin). lra.
Qed.

(** [vlin own vu]: the value family [vu u] (indexed by a block [u l r]) is linear in [u] at the
    features [own r] and does not depend on [u] elsewhere; all coefficients are non-negative. *)
Definition vlin (L D S Rn : nat) (own : nat -> nat) (vu : (nat -> nat -> R) -> vals) : Prop :=
  exists (a : nat -> nat -> nat -> R) (b : vals),
    (forall s r l, (s < S)%nat -> (r < Rn)%nat -> (l < L)%nat -> 0 <= a s r l) /\
    (forall d s r, (d < D)%nat -> (s < S)%nat -> (r < Rn)%nat -> 0 <= b d s r) /\
    forall u d s r, (d < D)%nat -> (s < S)%nat -> (r < Rn)%nat ->
      vu u d s r = if Nat.eqb d (own r) then rsum L (fun l => a s r l * u l r) else b d s r.

Lemma ueval_lin Rn L U own vu : uwf Rn U -> (forall r, (r < Rn)%nat -> (own r < uDin U)%nat) ->
  vlin L (uDin U) (uSin U) Rn own vu ->
  vlin L (uDout U) (uSout U) Rn (fun r => upar U (own r)) (fun u => ueval U (vu u)).
Proof.
  intros Hw Hown (a & b & Ha & Hb & Hv).
  exists (fun o r l => rsum (uK U) (fun k =>
            uW U (upar U (own r)) o r k *
            (a (usel U (upar U (own r)) o k (own r)) r l *
             lprod (fun d' => if Nat.eqb d' (own r) then 1 else b d' (usel U (upar U (own r)) o k d') r)
                   (ukids U (upar U (own r)))))).
  exists (ueval U b). split; [|split].
  - intros o r l Ho Hr Hl. apply rsum_nonneg. intros k Hk.
    assert (Hd : (upar U (own r) < uDout U)%nat) by (apply (uw_par _ _ Hw); auto).
    apply Rmult_le_pos; [left; apply (uw_pos _ _ Hw); auto|].
    assert (Hin: In (own r) (ukids U (upar U (own r)))) by (apply (uw_kids _ _ Hw); auto).
    apply Rmult_le_pos; [apply Ha; auto; apply (uw_sel _ _ Hw); auto|].
    apply lprod_nonneg. intros d' Hin'. destruct (Nat.eqb d' (own r)); [lra|].
    apply Hb; auto. + apply (uw_kids _ _ Hw) in Hin'; tauto. + apply (uw_sel _ _ Hw); auto.
  - intros d o r Hd Ho Hr. apply rsum_nonneg. intros k Hk.
    apply Rmult_le_pos; [left; apply (uw_pos _ _ Hw); auto|].
    apply lprod_nonneg. intros d' Hin'.
    apply Hb; auto. + apply (uw_kids _ _ Hw) in Hin'; tauto. + apply (uw_sel _ _ Hw); auto.
  - intros u d o r Hd Ho Hr. unfold ueval. destruct (Nat.eqb_spec d (upar U (own r))) as [->|Hne].
    + assert (Hin: In (own r) (ukids U (upar U (own r)))) by (apply (uw_kids _ _ Hw); auto).
      transitivity (rsum (uK U) (fun k => rsum L (fun l =>
        uW U (upar U (own r)) o r k *
            (a (usel U (upar U (own r)) o k (own r)) r l *
             lprod (fun d' => if Nat.eqb d' (own r) then 1 else b d' (usel U (upar U (own r)) o k d') r)
                   (ukids U (upar U (own r)))) * u l r))).
      * apply rsum_ext. intros k Hk. unfold uprod.
        rewrite (lprod_isolate _ _ (own r)); auto; [|apply (uw_nodup _ _ Hw); auto].
        rewrite Hv by (auto; apply (uw_sel _ _ Hw); auto). rewrite Nat.eqb_refl.
        rewrite (lprod_ext _ (fun d' => if Nat.eqb d' (own r) then 1 else b d' (usel U (upar U (own r)) o k d') r)).
        2:{ intros d' Hd'. destruct (Nat.eqb_spec d' (own r)); auto.
            rewrite Hv; auto; [|apply (uw_kids _ _ Hw) in Hd'; tauto|apply (uw_sel _ _ Hw); auto].
            destruct (Nat.eqb_spec d' (own r)); congruence. }
        rewrite (Rmult_comm (rsum L _)), <- Rmult_assoc.
        rewrite <- rsum_scal_l. apply rsum_ext. intros l Hl. ring.
      * rewrite rsum_swap. apply rsum_ext. intros l Hl. rewrite rsum_scal_r. reflexivity.
    + apply rsum_ext. intros k Hk. f_equal. unfold uprod. apply lprod_ext. intros d' Hd'.
      rewrite Hv; auto; [|apply (uw_kids _ _ Hw) in Hd'; tauto|apply (uw_sel _ _ Hw); auto].
      destruct (Nat.eqb_spec d' (own r)); auto. subst. apply (uw_kids _ _ Hw) in Hd'; auto. destruct Hd'; congruence.
Qed.

Lemma evals_lin Rn L ls : forall D S D' S' own vu, uchain Rn ls D S D' S' ->
  (forall r, (r < Rn)%nat -> (own r < D)%nat) -> vlin L D S Rn own vu ->
  vlin L D' S' Rn (fun r => owner ls (own r)) (fun u => evals ls (vu u)).
Proof.
  induction ls as [|U ls IH]; simpl; intros D S D' S' own vu Hc Ho Hv.
  - destruct Hc as [<- <-]. auto.
  - destruct Hc as (Hw & <- & <- & Hc). unfold evals, owner. simpl.
    apply (IH _ _ _ _ (fun r => upar U (own r)) (fun u => ueval U (vu u)) Hc).
    + intros r Hr. apply (uw_par _ _ Hw); auto.
    + apply ueval_lin; auto.
Qed.
Lemma owner_lt Rn ls : forall D S D' S' d, uchain Rn ls D S D' S' -> (d < D)%nat -> (owner ls d < D')%nat.
Proof.
  induction ls as [|U ls IH]; simpl; intros D S D' S' d Hc Hd.
  - destruct Hc as [<- <-]. auto.
  - destruct Hc as (Hw & <- & <- & Hc). unfold owner; simpl. eapply IH; eauto. apply (uw_par _ _ Hw); auto.
Qed.

(** * Children of all outputs are exactly the inputs *)
Lemma uprod_kids Rn U (f : nat -> R) : uwf Rn U ->
  rprod (uDout U) (fun d => lprod f (ukids U d)) = rprod (uDin U) f.
Proof.
  intros Hw. rewrite (rprod_group (uDin U) (uDout U) (upar U)) by (apply (uw_par _ _ Hw)).
  apply rprod_ext. intros d Hd.
  assert (G: forall l m, NoDup l -> NoDup m -> (forall x, In x l -> In x m) ->
     lprod f l = lprod (fun i => if in_dec Nat.eq_dec i l then f i else 1) m).
  { induction l as [|x l IHl]; intros m Hl Hm Hsub.
    - symmetry. apply lprod_one.
    - inversion Hl; subst. cbn [lprod]. rewrite (IHl m); auto; [|intros; apply Hsub; simpl; auto].
      rewrite (lprod_isolate (fun i => if in_dec Nat.eq_dec i (x :: l) then f i else 1) m x); auto.
      2:{ apply Hsub; simpl; auto. }
      destruct (in_dec Nat.eq_dec x (x :: l)) as [_|n]; [|exfalso; apply n; simpl; auto].
      f_equal. apply lprod_ext. intros y Hy. destruct (Nat.eqb_spec y x) as [->|Hne].
      + destruct (in_dec Nat.eq_dec x l); [contradiction|auto].
      + destruct (in_dec Nat.eq_dec y l), (in_dec Nat.eq_dec y (x :: l)); auto; simpl in *; intuition congruence. }
  rewrite (G (ukids U d) (seq 0 (uDin U))).
  - unfold rprod. apply lprod_ext. intros i Hi. apply in_seq0 in Hi.
    pose proof (uw_kids _ _ Hw d i Hd) as K.
    destruct (in_dec Nat.eq_dec i (ukids U d)) as [Hin|Hin], (Nat.eqb_spec (upar U i) d); auto.
    + apply K in Hin. destruct Hin. contradiction.
    + exfalso. apply Hin, K; auto.
  - apply (uw_nodup _ _ Hw); auto.
  - apply seq_NoDup.
  - intros x Hx. apply in_seq0. apply (uw_kids _ _ Hw d x Hd); auto.
Qed.

(** * Conditioning: one layer of posterior weights *)
Definition upost (U : ulayer) (v : vals) (d o r k : nat) : R :=
  uW U d o r k * uprod U v d o r k / ueval U v d o r.
Lemma upost_sum Rn U v d o r : uwf Rn U -> vpos (uDin U) (uSin U) Rn v ->
  (d < uDout U)%nat -> (o < uSout U)%nat -> (r < Rn)%nat -> rsum (uK U) (upost U v d o r) = 1.
Proof.
  intros Hw Hv Hd Ho Hr. unfold upost, Rdiv. rewrite rsum_scal_r. apply Rinv_r.
  apply Rgt_not_eq. apply (ueval_pos Rn U v); auto.
Qed.
Lemma upost_step Rn U v (hv : vals) d o r : uwf Rn U -> vpos (uDin U) (uSin U) Rn v ->
  (d < uDout U)%nat -> (o < uSout U)%nat -> (r < Rn)%nat ->
  rsum (uK U) (fun k => upost U v d o r k *
     lprod (fun d' => hv d' (usel U d o k d') r / v d' (usel U d o k d') r) (ukids U d)) =
  ueval U hv d o r / ueval U v d o r.
Proof.
  intros Hw Hv Hd Ho Hr. unfold upost.
  unfold ueval at 2. unfold Rdiv at 3. rewrite <- rsum_scal_r. apply rsum_ext. intros k Hk.
  rewrite lprod_div.
  2:{ intros d' Hin. apply Rgt_not_eq. apply Hv; auto.
      - apply (uw_kids _ _ Hw) in Hin; tauto. - apply (uw_sel _ _ Hw); auto. }
  fold (uprod U v d o r k). fold (uprod U hv d o r k).
  assert (0 < uprod U v d o r k) by (eapply uprod_pos; eauto).
  assert (0 < ueval U v d o r) by (eapply ueval_pos; eauto).
  field. split; lra.
Qed.
