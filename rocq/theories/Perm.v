(** argsort of a permutation is its two-sided inverse. *)
From Coq Require Import List Arith Lia Bool Permutation.
Import ListNotations.
From Verif Require Import Base RSum Leaf.

Definition is_perm (l : list nat) (n : nat) : Prop := Permutation l (seq 0 n).

Lemma is_perm_length l n : is_perm l n -> length l = n.
Proof. intros H. rewrite (Permutation_length H). apply seq_length. Qed.
Lemma is_perm_lt l n i : is_perm l n -> i < n -> nth i l 0 < n.
Proof.
  intros H Hi. assert (In (nth i l 0) (seq 0 n)).
  { eapply Permutation_in; [exact H|]. apply nth_In. rewrite (is_perm_length _ _ H). auto. }
  apply in_seq in H0. lia.
Qed.
Lemma is_perm_inj l n i j : is_perm l n -> i < n -> j < n -> nth i l 0 = nth j l 0 -> i = j.
Proof.
  intros H Hi Hj E. assert (ND: NoDup l) by (eapply Permutation_NoDup; [symmetry; exact H|apply seq_NoDup]).
  rewrite (NoDup_nth _ 0) in ND. apply ND in E; auto; rewrite (is_perm_length _ _ H); auto.
Qed.
Lemma is_perm_surj l n v : is_perm l n -> v < n -> exists i, i < n /\ nth i l 0 = v.
Proof.
  intros H Hv. assert (In v l) by (eapply Permutation_in; [symmetry; exact H|apply in_seq; lia]).
  apply In_nth with (d := 0) in H0 as (i & Hi & E). exists i. rewrite <- (is_perm_length _ _ H). auto.
Qed.

Lemma perm_filter {A} (f : A -> bool) l l' : Permutation l l' -> Permutation (filter f l) (filter f l').
Proof.
  induction 1; simpl; auto.
  - destruct (f x); auto.
  - destruct (f x), (f y); auto. apply perm_swap.
  - etransitivity; eauto.
Qed.
Lemma map_nth_seq (l : list nat) : map (fun j => nth j l 0) (seq 0 (length l)) = l.
Proof.
  apply nth_ext with (d := 0) (d' := 0); [rewrite map_length, seq_length; auto|].
  intros i Hi. rewrite map_length, seq_length in Hi. rewrite nth_map_seq; auto.
Qed.
Lemma filter_map_length {A B} (f : B -> bool) (g : A -> B) l :
  length (filter (fun x => f (g x)) l) = length (filter f (map g l)).
Proof. induction l; simpl; auto. destruct (f (g a)); simpl; auto. Qed.
Lemma filter_ltb_seq v n : v <= n -> length (filter (fun x => x <? v) (seq 0 n)) = v.
Proof.
  intros H. replace n with (v + (n - v)) by lia. rewrite seq_app, filter_app, app_length.
  assert (A: forall k s, s + k <= v -> length (filter (fun x => x <? v) (seq s k)) = k).
  { induction k; simpl; intros; auto. destruct (Nat.ltb_spec s v); [|lia]. simpl. rewrite IHk; lia. }
  assert (B: forall k s, v <= s -> length (filter (fun x => x <? v) (seq s k)) = 0).
  { induction k; simpl; intros; auto. destruct (Nat.ltb_spec s v); [lia|]. apply IHk; lia. }
  rewrite A, B; lia.
Qed.

Lemma rank_perm l n i : is_perm l n -> i < n -> rank l i = nth i l 0.
Proof.
  intros H Hi. unfold rank. pose proof (is_perm_length _ _ H) as Hl.
  rewrite (filter_ext_in _ (fun j => nth j l 0 <? nth i l 0)).
  - rewrite (filter_map_length (fun x => x <? nth i l 0) (fun j => nth j l 0)). rewrite map_nth_seq.
    rewrite (Permutation_length (perm_filter _ _ _ H)). apply filter_ltb_seq.
    pose proof (is_perm_lt _ _ _ H Hi). lia.
  - intros j Hj. apply in_seq in Hj. destruct (Nat.eqb_spec (nth j l 0) (nth i l 0)).
    + assert (j = i) by (eapply is_perm_inj; eauto; lia). subst j.
      rewrite (Nat.ltb_irrefl i). rewrite orb_false_r. auto.
    + rewrite orb_false_r. auto.
Qed.

Lemma argsort_length l : length (argsort l) = length l.
Proof. unfold argsort. rewrite map_length, seq_length. auto. Qed.
Lemma argsort_nth l n k : is_perm l n -> k < n -> nth k (argsort l) 0 < n /\ nth (nth k (argsort l) 0) l 0 = k.
Proof.
  intros H Hk. pose proof (is_perm_length _ _ H) as Hl. unfold argsort. rewrite Hl.
  rewrite nth_map_seq by auto.
  destruct (is_perm_surj _ _ _ H Hk) as (i & Hi & E).
  assert (I: In i (filter (fun i => rank l i =? k) (seq 0 n))).
  { apply filter_In. split; [apply in_seq; lia|]. rewrite (rank_perm _ n) by auto. apply Nat.eqb_eq; auto. }
  destruct (filter _ _) as [|j rest] eqn:Ef; [destruct I|]. simpl.
  assert (J: In j (filter (fun i => rank l i =? k) (seq 0 n))) by (rewrite Ef; left; auto).
  apply filter_In in J as [J1 J2]. apply in_seq in J1. apply Nat.eqb_eq in J2.
  rewrite (rank_perm _ n) in J2 by (auto; lia). split; [lia|auto].
Qed.
(** The other direction. *)
Lemma argsort_left l n i : is_perm l n -> i < n -> nth (nth i l 0) (argsort l) 0 = i.
Proof.
  intros H Hi. pose proof (is_perm_lt _ _ _ H Hi) as Hv.
  destruct (argsort_nth _ _ _ H Hv) as [A B]. eapply is_perm_inj; eauto.
Qed.
Lemma argsort_perm l n : is_perm l n -> is_perm (argsort l) n.
Proof.
  intros H. apply NoDup_Permutation_bis.
  - rewrite (NoDup_nth _ 0). rewrite argsort_length, (is_perm_length _ _ H). intros i j Hi Hj E.
    destruct (argsort_nth _ _ _ H Hi) as [_ A]. destruct (argsort_nth _ _ _ H Hj) as [_ B]. congruence.
  - rewrite argsort_length, (is_perm_length _ _ H), seq_length. auto.
  - intros v Hv. apply In_nth with (d := 0) in Hv as (i & Hi & <-).
    rewrite argsort_length, (is_perm_length _ _ H) in Hi. apply in_seq.
    destruct (argsort_nth _ _ _ H Hi). lia.
Qed.
