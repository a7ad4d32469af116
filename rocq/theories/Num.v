(** Float values: exact reals plus the IEEE special values.

    Rounding, overflow and underflow are not modelled; infinities and NaN are. *)
From Coq Require Import List Arith Lia Bool Reals Lra.
Import ListNotations.
From Verif Require Import Base RSum.
Local Open Scope R_scope.

Inductive num : Type := Fin (x : R) | PInf | NInf | NaN.

Definition nadd (a b : num) : num :=
  match a, b with
  | Fin x, Fin y => Fin (x + y)
  | NaN, _ | _, NaN => NaN
  | PInf, NInf | NInf, PInf => NaN
  | PInf, _ | _, PInf => PInf
  | NInf, _ | _, NInf => NInf
  end.
Definition nneg (a : num) : num :=
  match a with Fin x => Fin (- x) | PInf => NInf | NInf => PInf | NaN => NaN end.
Definition nsub (a b : num) : num := nadd a (nneg b).
(** Multiplication; [0 * inf] is NaN. *)
Definition nmul (a b : num) : num :=
  let inf_times (s : bool) (y : R) :=
    if Rlt_dec 0 y then (if s then PInf else NInf)
    else if Rlt_dec y 0 then (if s then NInf else PInf) else NaN in
  match a, b with
  | Fin x, Fin y => Fin (x * y)
  | NaN, _ | _, NaN => NaN
  | PInf, Fin y | Fin y, PInf => inf_times true y
  | NInf, Fin y | Fin y, NInf => inf_times false y
  | PInf, PInf | NInf, NInf => PInf
  | PInf, NInf | NInf, PInf => NaN
  end.
(** Division; [x / 0] is a signed infinity, [0 / 0] is NaN (zeros are unsigned here). *)
Definition ndiv (a b : num) : num :=
  match a, b with
  | NaN, _ | _, NaN => NaN
  | Fin x, Fin y =>
      if Req_EM_T y 0 then (if Rlt_dec 0 x then PInf else if Rlt_dec x 0 then NInf else NaN)
      else Fin (x / y)
  | Fin _, (PInf | NInf) => Fin 0
  | PInf, Fin y => if Rlt_dec y 0 then NInf else PInf
  | NInf, Fin y => if Rlt_dec y 0 then PInf else NInf
  | (PInf | NInf), (PInf | NInf) => NaN
  end.
Definition nexp (a : num) : num :=
  match a with Fin x => Fin (exp x) | PInf => PInf | NInf => Fin 0 | NaN => NaN end.
Definition nlog (a : num) : num :=
  match a with
  | Fin x => if Rlt_dec 0 x then Fin (ln x) else if Req_EM_T x 0 then NInf else NaN
  | PInf => PInf | NInf => NaN | NaN => NaN
  end.
(** [torch.max]: NaN propagates. *)
Definition nmax (a b : num) : num :=
  match a, b with
  | NaN, _ | _, NaN => NaN
  | PInf, _ | _, PInf => PInf
  | NInf, c | c, NInf => c
  | Fin x, Fin y => Fin (Rmax x y)
  end.
(** [a < b] as floats compare: false if either is NaN. *)
Definition nltb (a b : num) : bool :=
  match a, b with
  | NaN, _ | _, NaN => false
  | Fin x, Fin y => if Rlt_dec x y then true else false
  | NInf, NInf => false
  | NInf, _ => true
  | _, PInf => match a with PInf => false | _ => true end
  | _, _ => false
  end.
Definition isnan (a : num) : bool := match a with NaN => true | _ => false end.
Definition isfin (a : num) : bool := match a with Fin _ => true | _ => false end.

Definition toR (a : num) : R := match a with Fin x => x | _ => 0 end.

(** Folds over an index range, as the reductions of PyTorch use them. *)
Definition nsum (n : nat) (f : nat -> num) : num :=
  fold_left (fun acc i => nadd acc (f i)) (seq 0 n) (Fin 0).
Definition nmaxl (n : nat) (f : nat -> num) : num :=
  fold_left (fun acc i => nmax acc (f i)) (seq 0 n) NInf.
(** torch.logsumexp along one dimension: log of the sum of exponentials. *)
Definition nlogsumexp (n : nat) (f : nat -> num) : num := nlog (nsum n (fun i => nexp (f i))).
(** torch.argmax: position of the first maximal entry (ties and NaN: PyTorch leaves the choice
    among equal maxima unspecified; the first one is taken here). *)
Fixpoint argmax_aux (f : nat -> num) (n i best : nat) : nat :=
  match n with
  | O => best
  | S n' => argmax_aux f n' (S i) (if nltb (f best) (f i) then i else best)
  end.
Definition nargmax (n : nat) (f : nat -> num) : nat := argmax_aux f (pred n) 1 0.

(** * Lemmas: operations on finite values stay finite *)

Lemma nsum_ext n f g : (forall i, (i < n)%nat -> f i = g i) -> nsum n f = nsum n g.
Proof.
  intros H. unfold nsum.
  assert (G: forall l acc, (forall i, In i l -> f i = g i) ->
     fold_left (fun a i => nadd a (f i)) l acc = fold_left (fun a i => nadd a (g i)) l acc).
  { induction l; simpl; intros; auto. rewrite H0 by auto. apply IHl; auto. }
  apply G. intros i Hi. apply H, in_seq0; auto.
Qed.
Lemma nmaxl_ext n f g : (forall i, (i < n)%nat -> f i = g i) -> nmaxl n f = nmaxl n g.
Proof.
  intros H. unfold nmaxl.
  assert (G: forall l acc, (forall i, In i l -> f i = g i) ->
     fold_left (fun a i => nmax a (f i)) l acc = fold_left (fun a i => nmax a (g i)) l acc).
  { induction l; simpl; intros; auto. rewrite H0 by auto. apply IHl; auto. }
  apply G. intros i Hi. apply H, in_seq0; auto.
Qed.
Lemma nlogsumexp_ext n f g : (forall i, (i < n)%nat -> f i = g i) -> nlogsumexp n f = nlogsumexp n g.
Proof. intros H. unfold nlogsumexp. f_equal. apply nsum_ext. intros. rewrite H; auto. Qed.

Lemma nsum_S n f : nsum (S n) f = nadd (nsum n f) (f n).
Proof. unfold nsum. rewrite seq_S_app, fold_left_app. reflexivity. Qed.
Lemma nmaxl_S n f : nmaxl (S n) f = nmax (nmaxl n f) (f n).
Proof. unfold nmaxl. rewrite seq_S_app, fold_left_app. reflexivity. Qed.

Lemma nsum_fin n f (r : nat -> R) : (forall i, (i < n)%nat -> f i = Fin (r i)) -> nsum n f = Fin (rsum n r).
Proof.
  induction n; intros H; [reflexivity|]. rewrite nsum_S, rsum_S, IHn by (intros; apply H; lia).
  rewrite H by lia. reflexivity.
Qed.
Lemma nmaxl_fin n f (r : nat -> R) : (0 < n)%nat -> (forall i, (i < n)%nat -> f i = Fin (r i)) ->
  exists m, nmaxl n f = Fin m /\ (exists i, (i < n)%nat /\ m = r i) /\ forall i, (i < n)%nat -> r i <= m.
Proof.
  induction n; intros Hn H; [lia|]. rewrite nmaxl_S, (H n) by lia.
  destruct n.
  - exists (r 0%nat). split; [reflexivity|]. split; [exists 0%nat; split; auto|].
    intros i Hi. replace i with 0%nat by lia. lra.
  - destruct IHn as (m & Hm & (j & Hj & Ej) & Hle); [lia|intros; apply H; lia|].
    rewrite Hm. simpl. exists (Rmax m (r (S n))). split; auto. split.
    + destruct (Rle_dec m (r (S n))).
      * exists (S n). split; [lia|]. apply Rmax_right; auto.
      * exists j. split; [lia|]. rewrite Rmax_left; lra.
    + intros i Hi. destruct (Nat.eq_dec i (S n)) as [->|].
      * apply Rmax_r.
      * eapply Rle_trans; [apply Hle; lia|apply Rmax_l].
Qed.
Lemma nlog_pos x : 0 < x -> nlog (Fin x) = Fin (ln x).
Proof. intros. simpl. destruct (Rlt_dec 0 x); [auto|lra]. Qed.
Lemma nlog_zero : nlog (Fin 0) = NInf.
Proof. simpl. destruct (Rlt_dec 0 0); [lra|]. destruct (Req_EM_T 0 0); [auto|lra]. Qed.
Lemma nlogsumexp_fin n f (r : nat -> R) : (0 < n)%nat -> (forall i, (i < n)%nat -> f i = Fin (r i)) ->
  nlogsumexp n f = Fin (ln (rsum n (fun i => exp (r i)))).
Proof.
  intros Hn H. unfold nlogsumexp.
  rewrite (nsum_fin n _ (fun i => exp (r i))) by (intros; rewrite H by auto; reflexivity).
  apply nlog_pos. apply rsum_pos; auto. intros. apply exp_pos.
Qed.
(** A sum of exponentials where some entries may be minus infinity. *)
Definition pval (a : num) : R := match a with Fin x => exp x | _ => 0 end.
Definition lowfin (a : num) : Prop := match a with Fin _ | NInf => True | _ => False end.
Lemma nexp_lowfin a : lowfin a -> nexp a = Fin (pval a).
Proof. destruct a; simpl; tauto. Qed.
Lemma nsum_exp_lowfin n f : (forall i, (i < n)%nat -> lowfin (f i)) ->
  nsum n (fun i => nexp (f i)) = Fin (rsum n (fun i => pval (f i))).
Proof. intros H. apply nsum_fin. intros. apply nexp_lowfin; auto. Qed.

Lemma pval_nonneg a : 0 <= pval a.
Proof. destruct a; simpl; try lra. left; apply exp_pos. Qed.

Lemma isfin_Fin a : isfin a = true -> a = Fin (toR a).
Proof. destruct a; simpl; intros; congruence. Qed.

(** ** Softmax on reals *)
Definition rsoftmax (n : nat) (f : nat -> R) (i : nat) : R := exp (f i) / rsum n (fun j => exp (f j)).
Lemma rsumexp_pos n f : (0 < n)%nat -> 0 < rsum n (fun j => exp (f j)).
Proof. intros. apply rsum_pos; auto. intros. apply exp_pos. Qed.
Lemma rsoftmax_pos n f i : (0 < n)%nat -> 0 < rsoftmax n f i.
Proof. intros. apply Rdiv_lt_0_compat; [apply exp_pos|apply rsumexp_pos; auto]. Qed.
Lemma rsoftmax_sum n f : (0 < n)%nat -> rsum n (rsoftmax n f) = 1.
Proof.
  intros. unfold rsoftmax, Rdiv. rewrite rsum_scal_r. apply Rinv_r.
  apply Rgt_not_eq, rsumexp_pos; auto.
Qed.
Lemma exp_log_softmax n f i : (0 < n)%nat -> exp (f i - ln (rsum n (fun j => exp (f j)))) = rsoftmax n f i.
Proof.
  intros. unfold Rminus. rewrite exp_plus, exp_Ropp, exp_ln by (apply rsumexp_pos; auto). reflexivity.
Qed.
Lemma rsoftmax_ext n f g i : (i < n)%nat -> (forall j, (j < n)%nat -> f j = g j) -> rsoftmax n f i = rsoftmax n g i.
Proof.
  intros Hi H. unfold rsoftmax. rewrite H by auto. f_equal. apply rsum_ext. intros. rewrite H; auto.
Qed.
Lemma rsoftmax_shift n f c i : (0 < n)%nat -> rsoftmax n (fun j => f j + c) i = rsoftmax n f i.
Proof.
  intros. unfold rsoftmax. rewrite exp_plus.
  rewrite (rsum_ext n (fun j => exp (f j + c)) (fun j => exp (f j) * exp c)) by (intros; apply exp_plus).
  rewrite rsum_scal_r. field. split; [apply Rgt_not_eq, rsumexp_pos; auto|apply Rgt_not_eq, exp_pos].
Qed.

(** ** Argmax *)
Lemma nargmax_lt n f : (0 < n)%nat -> (nargmax n f < n)%nat.
Proof.
  intros Hn. unfold nargmax.
  assert (G: forall k i best, (best < i)%nat -> (argmax_aux f k i best < i + k)%nat).
  { induction k; intros; simpl; [lia|].
    destruct (nltb (f best) (f i)); (eapply Nat.lt_le_trans; [apply IHk; lia|lia]). }
  specialize (G (pred n) 1%nat 0%nat ltac:(lia)). lia.
Qed.

Lemma nargmax_max n f (r : nat -> R) : (0 < n)%nat -> (forall i, (i < n)%nat -> f i = Fin (r i)) ->
  forall j, (j < n)%nat -> r j <= r (nargmax n f).
Proof.
  intros Hn Hf. unfold nargmax.
  assert (G: forall k i best, (best < i)%nat -> (i + k <= n)%nat ->
     (forall j, (j < i)%nat -> r j <= r best) ->
     forall j, (j < i + k)%nat -> r j <= r (argmax_aux f k i best)).
  { induction k; intros i best Hb Hik Hm j Hj; simpl; [apply Hm; lia|].
    rewrite !Hf by lia. simpl. destruct (Rlt_dec (r best) (r i)).
    - apply IHk; try lia. intros j' Hj'. destruct (Nat.eq_dec j' i) as [->|]; [lra|].
      apply Rle_trans with (r best); [apply Hm; lia|lra].
    - apply IHk; try lia. intros j' Hj'. destruct (Nat.eq_dec j' i) as [->|]; [lra|].
      apply Hm; lia. }
  intros j Hj. apply (G (pred n) 1%nat 0%nat); try lia.
  intros j' Hj'. replace j' with 0%nat by lia. lra.
Qed.

Lemma nargmax_ext n f g : (forall i, (i < n)%nat -> f i = g i) -> nargmax n f = nargmax n g.
Proof.
  intros H. unfold nargmax.
  assert (G: forall k i best, (best < i)%nat -> (i + k <= n)%nat -> argmax_aux f k i best = argmax_aux g k i best).
  { induction k; intros; simpl; auto. rewrite !H by lia.
    destruct (nltb _ _); apply IHk; lia. }
  destruct n; [reflexivity|]. apply G; simpl; lia.
Qed.
