(** Finite sums and products of reals over lists. *)
From Coq Require Import List Arith Lia Reals Lra Permutation.
Import ListNotations.
From Verif Require Import Base.
Local Open Scope R_scope.

Fixpoint lsum {A} (f : A -> R) (l : list A) : R :=
  match l with [] => 0 | a :: l' => f a + lsum f l' end.
Fixpoint lprod {A} (f : A -> R) (l : list A) : R :=
  match l with [] => 1 | a :: l' => f a * lprod f l' end.

(** Sum and product over [0 .. n-1]. *)
Definition rsum (n : nat) (f : nat -> R) : R := lsum f (seq 0 n).
Definition rprod (n : nat) (f : nat -> R) : R := lprod f (seq 0 n).

Section ListSums.
Context {A B : Type}.
Implicit Types f g : A -> R.

Lemma lsum_ext f g l : (forall a, In a l -> f a = g a) -> lsum f l = lsum g l.
Proof. induction l; simpl; intros H; auto. rewrite H, IHl; auto. Qed.
Lemma lprod_ext f g l : (forall a, In a l -> f a = g a) -> lprod f l = lprod g l.
Proof. induction l; simpl; intros H; auto. rewrite H, IHl; auto. Qed.

Lemma lsum_app f l1 l2 : lsum f (l1 ++ l2) = lsum f l1 + lsum f l2.
Proof. induction l1; simpl; lra. Qed.
Lemma lprod_app f l1 l2 : lprod f (l1 ++ l2) = lprod f l1 * lprod f l2.
Proof. induction l1; simpl; [lra|rewrite IHl1; lra]. Qed.

Lemma lsum_scal_l c f l : lsum (fun a => c * f a) l = c * lsum f l.
Proof. induction l; simpl; [lra|rewrite IHl; lra]. Qed.
Lemma lsum_scal_r c f l : lsum (fun a => f a * c) l = lsum f l * c.
Proof. induction l; simpl; [lra|rewrite IHl; lra]. Qed.
Lemma lsum_plus f g l : lsum (fun a => f a + g a) l = lsum f l + lsum g l.
Proof. induction l; simpl; [lra|rewrite IHl; lra]. Qed.
Lemma lsum_zero l : lsum (fun _ : A => 0) l = 0.
Proof. induction l; simpl; lra. Qed.
Lemma lsum_const c l : lsum (fun _ : A => c) l = INR (length l) * c.
Proof. induction l; [simpl; lra|]. cbn [lsum length]. rewrite IHl, S_INR. lra. Qed.
Lemma lprod_one l : lprod (fun _ : A => 1) l = 1.
Proof. induction l; simpl; [lra|rewrite IHl; lra]. Qed.
Lemma lprod_mult f g l : lprod (fun a => f a * g a) l = lprod f l * lprod g l.
Proof. induction l; simpl; [lra|rewrite IHl; lra]. Qed.
Lemma lprod_div f g l : (forall a, In a l -> g a <> 0) ->
  lprod (fun a => f a / g a) l = lprod f l / lprod g l.
Proof.
  induction l; simpl; intros H; [lra|]. rewrite IHl by auto.
  assert (lprod g l <> 0).
  { clear IHl. induction l; simpl; [lra|]. apply Rmult_integral_contrapositive_currified.
    - apply H; simpl; auto. - apply IHl. intros; apply H. simpl in *. tauto. }
  field. auto.
Qed.

Lemma lsum_map (h : B -> A) f (l : list B) : lsum f (map h l) = lsum (fun b => f (h b)) l.
Proof. induction l; simpl; auto. rewrite IHl; auto. Qed.
Lemma lprod_map (h : B -> A) f (l : list B) : lprod f (map h l) = lprod (fun b => f (h b)) l.
Proof. induction l; simpl; auto. rewrite IHl; auto. Qed.

Lemma lsum_perm f l l' : Permutation l l' -> lsum f l = lsum f l'.
Proof. induction 1; simpl; lra. Qed.
Lemma lprod_perm f l l' : Permutation l l' -> lprod f l = lprod f l'.
Proof. induction 1; simpl; try congruence; try (rewrite IHPermutation; lra); ring. Qed.

Lemma lsum_nonneg f l : (forall a, In a l -> 0 <= f a) -> 0 <= lsum f l.
Proof.
  induction l; simpl; intros H; [lra|].
  apply Rplus_le_le_0_compat; [apply H; auto | apply IHl; auto].
Qed.
Lemma lsum_pos f l : l <> [] -> (forall a, In a l -> 0 < f a) -> 0 < lsum f l.
Proof.
  destruct l as [|a l]; [congruence|]. intros _ H. simpl.
  apply Rplus_lt_le_0_compat; [apply H; simpl; auto|].
  apply lsum_nonneg. intros. left. apply H. simpl; auto.
Qed.
Lemma lprod_pos f l : (forall a, In a l -> 0 < f a) -> 0 < lprod f l.
Proof. induction l; simpl; intros H; [lra|]. apply Rmult_lt_0_compat; auto. Qed.
Lemma lprod_nonneg f l : (forall a, In a l -> 0 <= f a) -> 0 <= lprod f l.
Proof. induction l; simpl; intros H; [lra|]. apply Rmult_le_pos; auto. Qed.
Lemma lsum_le f g l : (forall a, In a l -> f a <= g a) -> lsum f l <= lsum g l.
Proof. induction l; simpl; intros H; [lra|]. apply Rplus_le_compat; auto. Qed.
Lemma lprod_le f g l : (forall a, In a l -> 0 <= f a <= g a) -> lprod f l <= lprod g l.
Proof.
  induction l; simpl; intros H; [lra|].
  apply Rmult_le_compat; try apply H; auto.
  - apply lprod_nonneg. intros. apply H; auto.
Qed.
Lemma lsum_term_le f l a : In a l -> (forall b, In b l -> 0 <= f b) -> f a <= lsum f l.
Proof.
  induction l; simpl; intros Hin H; [tauto|]. destruct Hin as [->|Hin].
  - assert (0 <= lsum f l) by (apply lsum_nonneg; auto). lra.
  - assert (f a <= lsum f l) by auto. assert (0 <= f a0) by auto. lra.
Qed.
Lemma lprod_zero f l a : In a l -> f a = 0 -> lprod f l = 0.
Proof. induction l; simpl; [tauto|]. intros [->|Hin] H; [rewrite H; lra|rewrite IHl; auto; lra]. Qed.

Lemma lsum_swap (h : A -> B -> R) (l : list A) (m : list B) :
  lsum (fun a => lsum (fun b => h a b) m) l = lsum (fun b => lsum (fun a => h a b) l) m.
Proof.
  induction l as [|a l IH]; simpl.
  - symmetry. induction m; simpl; lra.
  - rewrite IH. clear IH. induction m; simpl; [lra|]. rewrite <- IHm. lra.
Qed.
Lemma lprod_swap (h : A -> B -> R) (l : list A) (m : list B) :
  lprod (fun a => lprod (fun b => h a b) m) l = lprod (fun b => lprod (fun a => h a b) l) m.
Proof.
  induction l as [|a l IH]; simpl.
  - symmetry. induction m; simpl; [lra|]. rewrite IHm; lra.
  - rewrite IH. clear IH. induction m; simpl; [lra|]. rewrite <- IHm. ring.
Qed.
End ListSums.

Lemma lsum_flat_map {A B} (f : B -> R) (h : A -> list B) l :
  lsum f (flat_map h l) = lsum (fun a => lsum f (h a)) l.
Proof. induction l; simpl; auto. rewrite lsum_app, IHl; auto. Qed.
Lemma lprod_flat_map {A B} (f : B -> R) (h : A -> list B) l :
  lprod f (flat_map h l) = lprod (fun a => lprod f (h a)) l.
Proof. induction l; simpl; auto. rewrite lprod_app, IHl; auto. Qed.

Lemma exp_lsum {A} (f : A -> R) l : exp (lsum f l) = lprod (fun a => exp (f a)) l.
Proof. induction l; simpl; [apply exp_0|]. rewrite exp_plus, IHl; auto. Qed.

(** ** Index ranges *)
Lemma in_seq0 n i : In i (seq 0 n) <-> (i < n)%nat.
Proof. rewrite in_seq. lia. Qed.

Lemma rsum_ext n f g : (forall i, (i < n)%nat -> f i = g i) -> rsum n f = rsum n g.
Proof. intros H. apply lsum_ext. intros i Hi. apply H. apply in_seq0; auto. Qed.
Lemma rprod_ext n f g : (forall i, (i < n)%nat -> f i = g i) -> rprod n f = rprod n g.
Proof. intros H. apply lprod_ext. intros i Hi. apply H. apply in_seq0; auto. Qed.
Lemma rsum_S n f : rsum (S n) f = rsum n f + f n.
Proof. unfold rsum. rewrite seq_S_app, lsum_app. simpl. lra. Qed.
Lemma rprod_S n f : rprod (S n) f = rprod n f * f n.
Proof. unfold rprod. rewrite seq_S_app, lprod_app. simpl. lra. Qed.
Lemma rsum_0 f : rsum 0 f = 0.
Proof. reflexivity. Qed.
Lemma rprod_0 f : rprod 0 f = 1.
Proof. reflexivity. Qed.
Lemma rsum_scal_l c n f : rsum n (fun i => c * f i) = c * rsum n f.
Proof. apply lsum_scal_l. Qed.
Lemma rsum_scal_r c n f : rsum n (fun i => f i * c) = rsum n f * c.
Proof. apply lsum_scal_r. Qed.
Lemma rsum_plus n f g : rsum n (fun i => f i + g i) = rsum n f + rsum n g.
Proof. apply lsum_plus. Qed.
Lemma rsum_zero n : rsum n (fun _ => 0) = 0.
Proof. apply lsum_zero. Qed.
Lemma rsum_const n c : rsum n (fun _ => c) = INR n * c.
Proof. unfold rsum. rewrite lsum_const, seq_length. auto. Qed.
Lemma rprod_one n : rprod n (fun _ => 1) = 1.
Proof. apply lprod_one. Qed.
Lemma rprod_mult n f g : rprod n (fun i => f i * g i) = rprod n f * rprod n g.
Proof. apply lprod_mult. Qed.
Lemma rsum_pos n f : (0 < n)%nat -> (forall i, (i < n)%nat -> 0 < f i) -> 0 < rsum n f.
Proof. intros Hn H. apply lsum_pos. - destruct n; [lia|discriminate]. - intros. apply H, in_seq0; auto. Qed.
Lemma rsum_nonneg n f : (forall i, (i < n)%nat -> 0 <= f i) -> 0 <= rsum n f.
Proof. intros H. apply lsum_nonneg. intros. apply H, in_seq0; auto. Qed.
Lemma rprod_pos n f : (forall i, (i < n)%nat -> 0 < f i) -> 0 < rprod n f.
Proof. intros H. apply lprod_pos. intros. apply H, in_seq0; auto. Qed.
Lemma rprod_nonneg n f : (forall i, (i < n)%nat -> 0 <= f i) -> 0 <= rprod n f.
Proof. intros H. apply lprod_nonneg. intros. apply H, in_seq0; auto. Qed.
Lemma rsum_le n f g : (forall i, (i < n)%nat -> f i <= g i) -> rsum n f <= rsum n g.
Proof. intros H. apply lsum_le. intros. apply H, in_seq0; auto. Qed.
Lemma rprod_le n f g : (forall i, (i < n)%nat -> 0 <= f i <= g i) -> rprod n f <= rprod n g.
Proof. intros H. apply lprod_le. intros. apply H, in_seq0; auto. Qed.
Lemma rsum_swap n m h : rsum n (fun i => rsum m (fun j => h i j)) = rsum m (fun j => rsum n (fun i => h i j)).
Proof. apply lsum_swap. Qed.
Lemma rprod_swap n m h : rprod n (fun i => rprod m (fun j => h i j)) = rprod m (fun j => rprod n (fun i => h i j)).
Proof. apply lprod_swap. Qed.
Lemma rprod_div n f g : (forall i, (i < n)%nat -> g i <> 0) ->
  rprod n (fun a => f a / g a) = rprod n f / rprod n g.
Proof. intros H. apply lprod_div. intros. apply H, in_seq0; auto. Qed.

(** A sum whose terms vanish except at [k]. *)
Lemma rsum_single n k f : (k < n)%nat -> (forall i, (i < n)%nat -> i <> k -> f i = 0) -> rsum n f = f k.
Proof.
  revert k; induction n; intros k Hk H; [lia|]. rewrite rsum_S.
  destruct (Nat.eq_dec k n) as [->|Hne].
  - rewrite (rsum_ext n f (fun _ => 0)), rsum_zero; [lra|]. intros; apply H; lia.
  - rewrite (IHn k); [|lia|intros; apply H; lia]. rewrite (H n) by lia. lra.
Qed.
Lemma rsum_indicator n k f : (k < n)%nat -> rsum n (fun i => (if Nat.eqb i k then 1 else 0) * f i) = f k.
Proof.
  intros Hk. rewrite (rsum_single n k); auto.
  - rewrite Nat.eqb_refl. lra.
  - intros i _ Hi. apply Nat.eqb_neq in Hi. rewrite Hi. lra.
Qed.
Lemma rprod_single n k f : (k < n)%nat -> (forall i, (i < n)%nat -> i <> k -> f i = 1) -> rprod n f = f k.
Proof.
  revert k; induction n; intros k Hk H; [lia|]. rewrite rprod_S.
  destruct (Nat.eq_dec k n) as [->|Hne].
  - rewrite (rprod_ext n f (fun _ => 1)), rprod_one; [lra|]. intros; apply H; lia.
  - rewrite (IHn k); [|lia|intros; apply H; lia]. rewrite (H n) by lia. lra.
Qed.
(** Isolate one factor. *)
Lemma rprod_split n k f : (k < n)%nat ->
  rprod n f = f k * rprod n (fun i => if Nat.eqb i k then 1 else f i).
Proof.
  intros Hk.
  assert (E: rprod n (fun i => if Nat.eqb i k then f i else 1) = f k).
  { rewrite (rprod_single n k); auto. rewrite Nat.eqb_refl; auto.
    intros i _ Hi. apply Nat.eqb_neq in Hi. rewrite Hi; auto. }
  rewrite <- E, <- rprod_mult. apply rprod_ext. intros i _. destruct (Nat.eqb i k); lra.
Qed.

(** Sums over a product range: [k = i * m + j]. *)
Lemma lsum_seq_shift f s n : lsum f (seq s n) = lsum (fun i => f (s + i)%nat) (seq 0 n).
Proof.
  revert s f; induction n; intros; auto. cbn [seq lsum]. rewrite Nat.add_0_r. f_equal.
  rewrite (IHn (S s)). rewrite (IHn 1%nat). apply lsum_ext. intros. f_equal. lia.
Qed.
Lemma lprod_seq_shift f s n : lprod f (seq s n) = lprod (fun i => f (s + i)%nat) (seq 0 n).
Proof.
  revert s f; induction n; intros; auto. cbn [seq lprod]. rewrite Nat.add_0_r. f_equal.
  rewrite (IHn (S s)). rewrite (IHn 1%nat). apply lprod_ext. intros. f_equal. lia.
Qed.
Lemma rsum_mul n m f : rsum (n * m) f = rsum n (fun i => rsum m (fun j => f (i * m + j)%nat)).
Proof.
  induction n; auto. rewrite rsum_S, <- IHn. unfold rsum.
  replace (S n * m)%nat with (n * m + m)%nat by lia.
  rewrite seq_app, lsum_app. simpl. f_equal. apply lsum_seq_shift.
Qed.
Lemma rprod_mul n m f : rprod (n * m) f = rprod n (fun i => rprod m (fun j => f (i * m + j)%nat)).
Proof.
  induction n; auto. rewrite rprod_S, <- IHn. unfold rprod.
  replace (S n * m)%nat with (n * m + m)%nat by lia.
  rewrite seq_app, lprod_app. simpl. f_equal. apply lprod_seq_shift.
Qed.
Lemma rprod_add n m f : rprod (n + m) f = rprod n f * rprod m (fun j => f (n + j)%nat).
Proof. unfold rprod. rewrite seq_app, lprod_app. simpl. f_equal. apply lprod_seq_shift. Qed.
Lemma rsum_add n m f : rsum (n + m) f = rsum n f + rsum m (fun j => f (n + j)%nat).
Proof. unfold rsum. rewrite seq_app, lsum_app. simpl. f_equal. apply lsum_seq_shift. Qed.

(** Regrouping a product by the value of a key. *)
Lemma rprod_group n m (g : nat -> nat) f : (forall i, (i < n)%nat -> (g i < m)%nat) ->
  rprod n f = rprod m (fun o => rprod n (fun i => if Nat.eqb (g i) o then f i else 1)).
Proof.
  intros Hg. rewrite rprod_swap. apply rprod_ext. intros i Hi.
  rewrite (rprod_single m (g i)); auto.
  - rewrite Nat.eqb_refl; auto.
  - intros o _ Ho. apply Nat.eqb_neq in Ho. rewrite Nat.eqb_sym, Ho. auto.
Qed.
Lemma rsum_group n m (g : nat -> nat) f : (forall i, (i < n)%nat -> (g i < m)%nat) ->
  rsum n f = rsum m (fun o => rsum n (fun i => if Nat.eqb (g i) o then f i else 0)).
Proof.
  intros Hg. rewrite rsum_swap. apply rsum_ext. intros i Hi.
  rewrite (rsum_single m (g i)); auto.
  - rewrite Nat.eqb_refl; auto.
  - intros o _ Ho. apply Nat.eqb_neq in Ho. rewrite Nat.eqb_sym, Ho. auto.
Qed.
