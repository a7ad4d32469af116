(** Proofs about the piecewise linear leaf. *)
From Coq Require Import List Arith Lia Bool ZArith Reals Lra.
Import ListNotations.
From Verif Require Import Base RSum Num RefFwd Data Piecewise.
Local Open Scope R_scope.

Lemma zipw_length {A B C} (f : A -> B -> C) a b : length (zipw f a b) = Nat.min (length a) (length b).
Proof. unfold zipw. rewrite map_length, combine_length. reflexivity. Qed.
Lemma zipw_nth {A B C} (f : A -> B -> C) a b i da db dc : (i < length a)%nat -> (i < length b)%nat ->
  nth i (zipw f a b) dc = f (nth i a da) (nth i b db).
Proof.
  revert b i. induction a as [|x a IH]; intros [|y b] [|i]; simpl; try lia; intros; auto. unfold zipw in IH. apply IH; lia.
Qed.
Lemma removelast_len {A} (l : list A) : length (removelast l) = (length l - 1)%nat.
Proof. rewrite removelast_firstn_len, firstn_length. lia. Qed.
Lemma nth_removelast {A} (l : list A) i d : (S i < length l)%nat -> nth i (removelast l) d = nth i l d.
Proof.
  revert i. induction l as [|x l IH]; intros i H; simpl in *; [lia|]. destruct l as [|y l]; simpl in *; [lia|].
  destruct i; auto. apply IH. lia.
Qed.
Lemma nth_tl {A} (l : list A) i d : nth i (tl l) d = nth (S i) l d.
Proof. destruct l; simpl; auto. destruct i; auto. Qed.
Lemma last_nth {A} (l : list A) d : last l d = nth (length l - 1) l d.
Proof.
  induction l as [|x l IH]; auto. destruct l as [|y l]; auto. change (last (x :: y :: l) d) with (last (y :: l) d). rewrite IH.
  simpl. rewrite Nat.sub_0_r. reflexivity.
Qed.
Lemma hd_nth {A} (l : list A) d : hd d l = nth 0 l d.
Proof. destruct l; auto. Qed.
Lemma tl_length {A} (l : list A) : length (tl l) = (length l - 1)%nat.
Proof. destruct l; simpl; lia. Qed.
Lemma diff_length {A B} (f : A -> A -> B) l : length (diff f l) = (length l - 1)%nat.
Proof. unfold diff. rewrite zipw_length, tl_length. lia. Qed.
Lemma diff_nth {A B} (f : A -> A -> B) l i da db : (S i < length l)%nat -> nth i (diff f l) db = f (nth (S i) l da) (nth i l da).
Proof.
  intros H. unfold diff. rewrite (zipw_nth f _ _ i da da); [rewrite nth_tl; auto| |lia]. rewrite tl_length. lia.
Qed.
Lemma nth_map_Fin l i d : (i < length l)%nat -> nth i (map Fin l) d = Fin (nth i l 0).
Proof. intros H. rewrite (nth_indep _ d (Fin 0)) by (rewrite map_length; auto). apply map_nth. Qed.

Lemma search_left_spec l x : (search_left l x <= length l)%nat /\ (forall j, (j < search_left l x)%nat -> nth j l 0 < x) /\
  ((search_left l x < length l)%nat -> x <= nth (search_left l x) l 0).
Proof.
  induction l as [|a l (A & B & C)]; simpl; [repeat split; intros; lia|]. destruct (Rlt_dec a x) as [L|L].
  - split; [lia|]. split; [|intros; apply C; lia]. intros [|j] Hj; [auto|]. apply B. lia.
  - split; [lia|]. split; [intros; lia|]. intros _. lra.
Qed.
Lemma search_right_spec l x : (search_right (map Fin l) x <= length l)%nat /\ (forall j, (j < search_right (map Fin l) x)%nat -> nth j l 0 <= x) /\
  ((search_right (map Fin l) x < length l)%nat -> x < nth (search_right (map Fin l) x) l 0).
Proof.
  induction l as [|a l (A & B & C)]; simpl; [repeat split; intros; lia|]. destruct (Rlt_dec x a) as [L|L].
  - split; [lia|]. split; [intros; lia|]. intros _. auto.
  - split; [lia|]. split; [|intros; apply C; lia]. intros [|j] Hj; [lra|]. apply B. lia.
Qed.

(** * Increasing knots *)
Definition increasing (xs : list R) : Prop := forall i, (S i < length xs)%nat -> nth i xs 0 < nth (S i) xs 0.
Lemma increasing_lt xs i j : increasing xs -> (i < j < length xs)%nat -> nth i xs 0 < nth j xs 0.
Proof.
  intros H [Hij Hj]. induction Hij as [|j Hij IH]; [apply H; auto|]. apply Rlt_trans with (nth j xs 0); [apply IH; lia|apply H; auto].
Qed.
Lemma increasing_le xs i j : increasing xs -> (i <= j < length xs)%nat -> nth i xs 0 <= nth j xs 0.
Proof. intros H [Hij Hj]. destruct (Nat.eq_dec i j) as [->|]; [lra|]. left. apply increasing_lt; auto. lia. Qed.

(** * Interpolation *)
Definition line (xs ys : list R) (i : nat) (x : R) : R :=
  nth i ys 0 + (nth (S i) ys 0 - nth i ys 0) * (x - nth i xs 0) / (nth (S i) xs 0 - nth i xs 0).
Lemma clamp0_fin a : clamp0 (Fin a) = Fin (Rmax a 0).
Proof. unfold clamp0. cbn [nltb]. destruct (Rlt_dec a 0); unfold Rmax; destruct (Rle_dec a 0); auto; f_equal; lra. Qed.

Local Ltac lens := repeat first [rewrite zipw_length | rewrite diff_length | rewrite removelast_len | rewrite map_length]; lia.
Section Interp.
Variables xs ys : list R.
Hypothesis Hinc : increasing xs.
Hypothesis Hlen : length ys = length xs.
Hypothesis Hn : (2 <= length xs)%nat.
Lemma interp_index x i : search_left xs x = i ->
  interp xs (map Fin ys) x =
  Fin (Rmax (match i with 0 => nth 0 ys 0 | S k => if (i =? length xs)%nat then nth (length xs - 1) ys 0 else line xs ys k x end) 0).
Proof.
  intros E. unfold interp. rewrite E. destruct (search_left_spec xs x) as (Hi & _ & _). rewrite E in Hi.
  set (m := zipw ndiv _ _). set (b := zipw nsub _ _). set (n := length xs) in *.
  assert (Lm: length m = (n - 1)%nat) by (unfold m; rewrite zipw_length, !diff_length, map_length, Hlen; fold n; lia).
  assert (Lb: length b = (n - 1)%nat) by (unfold b; rewrite (zipw_length nsub), (zipw_length nmul), Lm, map_length, !removelast_len, map_length, Hlen; fold n; lia).
  destruct i as [|k].
  - cbn [app nth]. rewrite hd_nth, nth_map_Fin by lia. cbn [nmul nadd]. rewrite <- clamp0_fin. f_equal. f_equal. ring.
  - cbn [app nth]. destruct (Nat.eqb_spec (S k) n) as [En|Nn].
    + replace k with (n - 1)%nat by lia. rewrite <- Lm at 1. rewrite nth_middle. rewrite <- Lb at 1. rewrite nth_middle.
      rewrite last_nth, map_length, Hlen, nth_map_Fin by lia. fold n. cbn [nmul nadd]. rewrite <- clamp0_fin. f_equal. f_equal. ring.
    + assert (Hk: (S k < n)%nat) by lia. rewrite (app_nth1 m) by lia. rewrite (app_nth1 b) by lia.
      assert (P: nth k xs 0 < nth (S k) xs 0) by (apply Hinc; auto).
      assert (Em: nth k m NaN = Fin ((nth (S k) ys 0 - nth k ys 0) / (nth (S k) xs 0 - nth k xs 0))).
      { unfold m. rewrite (zipw_nth ndiv _ _ k NaN NaN) by lens.
        rewrite (diff_nth nsub _ k NaN) by (rewrite map_length, Hlen; auto). rewrite (diff_nth _ xs k 0) by auto.
        rewrite !nth_map_Fin by lia. cbn [nsub nneg nadd]. rewrite ndiv_fin by lra. reflexivity. }
      assert (Eb: nth k b NaN = Fin (nth k ys 0 - (nth (S k) ys 0 - nth k ys 0) / (nth (S k) xs 0 - nth k xs 0) * nth k xs 0)).
      { unfold b. rewrite (zipw_nth nsub _ _ k NaN NaN) by lens.
        rewrite nth_removelast by (rewrite map_length; lia). rewrite nth_map_Fin by lia.
        rewrite (zipw_nth nmul _ _ k NaN NaN) by lens. rewrite Em.
        rewrite nth_map_Fin by (rewrite removelast_len; fold n; lia). rewrite nth_removelast by auto. reflexivity. }
      rewrite Em, Eb. cbn [nmul nadd]. rewrite <- clamp0_fin. f_equal. f_equal. unfold line. field. lra.
Qed.
Lemma search_first x : x <= nth 0 xs 0 -> search_left xs x = 0%nat.
Proof. intros H. destruct (search_left_spec xs x) as (_ & B & _). destruct (search_left xs x) as [|k]; auto. specialize (B 0%nat ltac:(lia)). lra. Qed.
Lemma search_segment x k : (S k < length xs)%nat -> nth k xs 0 < x <= nth (S k) xs 0 -> search_left xs x = S k.
Proof.
  intros Hk H. destruct (search_left_spec xs x) as (A & B & C). set (i := search_left xs x) in *.
  destruct (Nat.lt_trichotomy i (S k)) as [L|[E|L]]; auto.
  - exfalso. assert (i < length xs)%nat as Hi by lia. specialize (C Hi). assert (nth i xs 0 <= nth k xs 0) by (apply increasing_le; auto; lia). lra.
  - exfalso. specialize (B (S k) L). lra.
Qed.
Lemma search_last x : nth (length xs - 1) xs 0 < x -> search_left xs x = length xs.
Proof.
  intros H. destruct (search_left_spec xs x) as (A & B & C). set (i := search_left xs x) in *.
  destruct (Nat.eq_dec i (length xs)) as [|N]; auto. exfalso. assert (i < length xs)%nat as Hi by lia. specialize (C Hi).
  assert (nth i xs 0 <= nth (length xs - 1) xs 0) by (apply increasing_le; auto; lia). lra.
Qed.
Lemma interp_left x : x <= nth 0 xs 0 -> interp xs (map Fin ys) x = Fin (Rmax (nth 0 ys 0) 0).
Proof. intros H. rewrite (interp_index x 0%nat) by (apply search_first; auto). reflexivity. Qed.
Lemma interp_right x : nth (length xs - 1) xs 0 < x -> interp xs (map Fin ys) x = Fin (Rmax (nth (length xs - 1) ys 0) 0).
Proof.
  intros H. rewrite (interp_index x (length xs)) by (apply search_last; auto). rewrite Nat.eqb_refl. destruct (length xs); [lia|reflexivity].
Qed.
Lemma interp_segment x k : (S k < length xs)%nat -> nth k xs 0 < x <= nth (S k) xs 0 -> interp xs (map Fin ys) x = Fin (Rmax (line xs ys k x) 0).
Proof.
  intros Hk H. rewrite (interp_index x (S k)) by (apply search_segment; auto). destruct (Nat.eqb_spec (S k) (length xs)); [lia|reflexivity].
Qed.
(** Every point is in exactly one of the three cases. *)
Lemma knot_cases x : x <= nth 0 xs 0 \/ (exists k, (S k < length xs)%nat /\ nth k xs 0 < x <= nth (S k) xs 0) \/ nth (length xs - 1) xs 0 < x.
Proof.
  destruct (search_left_spec xs x) as (A & B & C). set (i := search_left xs x) in *.
  destruct i as [|k]; [left; apply C; lia|]. right. destruct (Nat.eq_dec (S k) (length xs)) as [E|N].
  - right. rewrite <- E. apply B. lia.
  - left. exists k. split; [lia|]. split; [apply B; lia|apply C; lia].
Qed.
Lemma line_start k : line xs ys k (nth k xs 0) = nth k ys 0.
Proof. unfold line. unfold Rdiv. ring. Qed.
Lemma line_end k : (S k < length xs)%nat -> line xs ys k (nth (S k) xs 0) = nth (S k) ys 0.
Proof. intros H. apply Hinc in H. unfold line. field. lra. Qed.
(** On the closed segment. *)
Lemma interp_closed x k : (S k < length xs)%nat -> nth k xs 0 <= x <= nth (S k) xs 0 -> interp xs (map Fin ys) x = Fin (Rmax (line xs ys k x) 0).
Proof.
  intros Hk [[H|H] H']; [apply interp_segment; auto|]. subst x. rewrite line_start. destruct k as [|k]; [apply interp_left; lra|].
  rewrite (interp_segment _ k) by (first [lia | split; [apply Hinc; lia|lra]]). rewrite line_end by lia. reflexivity.
Qed.
Lemma interp_knot k : (k < length xs)%nat -> interp xs (map Fin ys) (nth k xs 0) = Fin (Rmax (nth k ys 0) 0).
Proof.
  intros Hk. destruct k as [|k]; [apply interp_left; lra|]. rewrite (interp_segment _ k) by (first [lia | split; [apply Hinc; lia|lra]]).
  rewrite line_end by lia. reflexivity.
Qed.
(** A line lies between its ends. *)
Lemma line_between x k : (S k < length xs)%nat -> nth k xs 0 <= x <= nth (S k) xs 0 ->
  Rmin (nth k ys 0) (nth (S k) ys 0) <= line xs ys k x <= Rmax (nth k ys 0) (nth (S k) ys 0).
Proof.
  intros Hk H. pose proof (Hinc k Hk) as P. set (t := (x - nth k xs 0) / (nth (S k) xs 0 - nth k xs 0)).
  assert (Ht: 0 <= t <= 1).
  { unfold t. split; [apply Rmult_le_pos; [lra|left; apply Rinv_0_lt_compat; lra]|].
    apply Rmult_le_reg_r with (nth (S k) xs 0 - nth k xs 0); [lra|]. unfold Rdiv. rewrite Rmult_assoc, Rinv_l by lra. lra. }
  assert (E: line xs ys k x = (1 - t) * nth k ys 0 + t * nth (S k) ys 0) by (unfold line, t; field; lra). rewrite E.
  set (a := nth k ys 0). set (b := nth (S k) ys 0). unfold Rmin, Rmax. destruct (Rle_dec a b) as [L|L]; nra.
Qed.
End Interp.

(** * The integral *)
Definition trap (xs ys : list R) (k : nat) : R := rsum k (fun i => (nth (S i) xs 0 - nth i xs 0) * ((nth (S i) ys 0 + nth i ys 0) / 2)).

Lemma integrable_closed f g a b : a <= b -> (forall x, a <= x <= b -> f x = g x) -> Riemann_integrable g a b -> Riemann_integrable f a b.
Proof.
  intros Hab E Hg eps. destruct (Hg eps) as (phi & psi & H1 & H2). exists phi, psi. split; auto. intros t Ht.
  rewrite E; [apply H1; auto|]. rewrite Rmin_left, Rmax_right in Ht by auto. auto.
Qed.
(** A line and its antiderivative. *)
Lemma line_integral p q a b : a <= b -> exists pr : Riemann_integrable (fun x => p + q * x) a b,
  RiemannInt pr = (b - a) * ((p + q * a + (p + q * b)) / 2).
Proof.
  intros Hab.
  assert (C: continuity (fun x => p + q * x)) by (intros x; apply derivable_continuous_pt; reg).
  assert (pr: Riemann_integrable (fun x => p + q * x) a b) by (apply continuity_implies_RiemannInt; auto).
  exists pr.
  assert (A: antiderivative (fun x => p + q * x) (fun x => p * x + q / 2 * (x * x)) a b).
  { split; auto. intros x _. assert (D: derivable_pt_lim (fun x => p * x + q / 2 * (x * x)) x (p + q * x)).
    { replace (p + q * x) with ((0 * x + p * 1) + (0 * (x * x) + q / 2 * (1 * x + x * 1))) by field.
      apply (derivable_pt_lim_plus (fun x => p * x) (fun x => q / 2 * (x * x))).
      - apply (derivable_pt_lim_mult (fun _ => p) id); [apply derivable_pt_lim_const|apply derivable_pt_lim_id].
      - apply (derivable_pt_lim_mult (fun _ => q / 2) (fun x => x * x)); [apply derivable_pt_lim_const|].
        apply (derivable_pt_lim_mult id id); apply derivable_pt_lim_id. }
    exists (exist _ (p + q * x) D : derivable_pt _ x). symmetry. apply derive_pt_eq_0; auto. }
  pose proof (RiemannInt_P29 Hab (fun x H => C x)) as A2.
  destruct (antiderivative_Ucte _ _ _ _ _ A A2) as (c & Hc).
  pose proof (Hc a (conj (Rle_refl a) Hab)) as Ea. pose proof (Hc b (conj Hab (Rle_refl b))) as Eb.
  unfold primitive in Ea, Eb. destruct (Rle_dec a a); [|lra]. destruct (Rle_dec a b); [|lra]. destruct (Rle_dec b b); [|lra].
  rewrite (RiemannInt_P5 _ pr) in Eb. rewrite RiemannInt_P9 in Ea. 
  nra.
Qed.
Definition integral (f : R -> R) (a b v : R) : Prop := exists pr : Riemann_integrable f a b, RiemannInt pr = v.
Lemma integral_ext f g a b v : a <= b -> (forall x, a <= x <= b -> f x = g x) -> integral g a b v -> integral f a b v.
Proof.
  intros Hab E [pr H]. exists (integrable_closed f g a b Hab E pr). rewrite <- H. apply RiemannInt_P18; auto. intros x Hx. apply E. lra.
Qed.
Lemma integral_chasles f a b c v w : integral f a b v -> integral f b c w -> integral f a c (v + w).
Proof. intros [p1 H1] [p2 H2]. exists (RiemannInt_P24 p1 p2). rewrite <- H1, <- H2. symmetry. apply RiemannInt_P26. Qed.
Lemma integral_point f a : integral f a a 0.
Proof. exists (RiemannInt_P7 f a). apply RiemannInt_P9. Qed.

Section Integral.
Variables xs ys : list R.
Hypothesis Hinc : increasing xs.
Hypothesis Hlen : length ys = length xs.
Hypothesis Hn : (2 <= length xs)%nat.
Hypothesis Hpos : forall i, 0 <= nth i ys 0.
Let f x := toR (interp xs (map Fin ys) x).
Lemma line_nonneg x k : (S k < length xs)%nat -> nth k xs 0 <= x <= nth (S k) xs 0 -> 0 <= line xs ys k x.
Proof.
  intros Hk H. pose proof (line_between xs ys Hinc x k Hk H) as [A _]. assert (0 <= Rmin (nth k ys 0) (nth (S k) ys 0)) by (apply Rmin_glb; auto). lra.
Qed.
Lemma f_line x k : (S k < length xs)%nat -> nth k xs 0 <= x <= nth (S k) xs 0 -> f x = line xs ys k x.
Proof.
  intros Hk H. unfold f. rewrite (interp_closed xs ys Hinc Hlen Hn x k Hk H). cbn [toR]. apply Rmax_left. apply line_nonneg; auto.
Qed.
Lemma interp_f x : interp xs (map Fin ys) x = Fin (f x) /\ 0 <= f x.
Proof.
  unfold f. rewrite (interp_index xs ys Hinc Hlen Hn x _ eq_refl). cbn [toR]. split; [reflexivity|apply Rmax_r].
Qed.
Lemma f_knot k : (k < length xs)%nat -> f (nth k xs 0) = nth k ys 0.
Proof. intros Hk. unfold f. rewrite (interp_knot xs ys Hinc Hlen Hn k Hk). cbn [toR]. apply Rmax_left, Hpos. Qed.
Lemma f_left x : x <= nth 0 xs 0 -> f x = nth 0 ys 0.
Proof. intros H. unfold f. rewrite (interp_left xs ys Hinc Hlen Hn x H). cbn [toR]. apply Rmax_left, Hpos. Qed.
Lemma f_right x : nth (length xs - 1) xs 0 < x -> f x = nth (length xs - 1) ys 0.
Proof. intros H. unfold f. rewrite (interp_right xs ys Hinc Hlen Hn x H). cbn [toR]. apply Rmax_left, Hpos. Qed.
Lemma f_segment k : (S k < length xs)%nat ->
  integral f (nth k xs 0) (nth (S k) xs 0) ((nth (S k) xs 0 - nth k xs 0) * ((nth (S k) ys 0 + nth k ys 0) / 2)).
Proof.
  intros Hk. pose proof (Hinc k Hk) as P.
  set (q := (nth (S k) ys 0 - nth k ys 0) / (nth (S k) xs 0 - nth k xs 0)). set (p := nth k ys 0 - q * nth k xs 0).
  apply (integral_ext f (fun x => p + q * x)); [lra| |].
  - intros x Hx. rewrite f_line with (k := k) by auto. unfold line, p, q. field. lra.
  - destruct (line_integral p q (nth k xs 0) (nth (S k) xs 0)) as [pr H]; [lra|]. exists pr. rewrite H. unfold p, q. field. lra.
Qed.
Lemma f_integral k : (k < length xs)%nat -> integral f (nth 0 xs 0) (nth k xs 0) (trap xs ys k).
Proof.
  unfold trap. induction k as [|k IH]; intros Hk; [rewrite rsum_0; apply integral_point|]. rewrite rsum_S.
  eapply integral_chasles; [apply IH; lia|apply f_segment; auto].
Qed.
(** The largest knot height is the largest value. *)
Lemma f_max : forall x, f x <= f (pl_mpe xs (map Fin ys)).
Proof.
  unfold pl_mpe. rewrite map_length, Hlen. set (m := nargmax _ _).
  assert (Hm: (m < length xs)%nat) by (apply nargmax_lt; lia).
  assert (M: forall i, (i < length xs)%nat -> nth i ys 0 <= nth m ys 0).
  { intros i Hi. apply (nargmax_max (length xs) _ (fun i => nth i ys 0)); auto; [lia|]. intros j Hj. apply nth_map_Fin. lia. }
  rewrite f_knot by auto. intros x. destruct (knot_cases xs ys Hlen Hn x) as [H|[(k & Hk & H)|H]]; auto.
  - rewrite f_left by auto. apply M. lia.
  - rewrite f_line with (k := k) by (auto; lra). pose proof (line_between xs ys Hinc x k Hk ltac:(lra)) as [_ B].
    assert (Rmax (nth k ys 0) (nth (S k) ys 0) <= nth m ys 0) by (apply Rmax_lub; apply M; lia). lra.
  - rewrite f_right by auto. apply M. lia.
Qed.
Lemma trapezoid_fin : trapezoid xs (map Fin ys) = Fin (trap xs ys (length xs - 1)).
Proof.
  unfold trapezoid, trap. apply nsum_fin. intros i Hi. rewrite !nth_map_Fin by lia. cbn [nadd]. rewrite ndiv_fin by lra. reflexivity.
Qed.
Lemma trap_mono k : (S k < length xs)%nat -> trap xs ys k <= trap xs ys (S k).
Proof.
  intros Hk. unfold trap. rewrite rsum_S. pose proof (Hinc k Hk). pose proof (Hpos k). pose proof (Hpos (S k)).
  assert (0 <= (nth (S k) xs 0 - nth k xs 0) * ((nth (S k) ys 0 + nth k ys 0) / 2)) by (apply Rmult_le_pos; lra). lra.
Qed.
Lemma trap_le k j : (k <= j < length xs)%nat -> trap xs ys k <= trap xs ys j.
Proof.
  intros [H Hj]. induction H as [|j H IH]; [lra|]. apply Rle_trans with (trap xs ys j); [apply IH; lia|apply trap_mono; auto].
Qed.
Lemma trap_pos i : (S i < length xs)%nat -> 0 < nth i ys 0 -> 0 < trap xs ys (length xs - 1).
Proof.
  intros Hi P. apply Rlt_le_trans with (trap xs ys (S i)); [|apply trap_le; lia]. unfold trap. rewrite rsum_S.
  assert (0 <= trap xs ys i). { apply Rle_trans with (trap xs ys 0); [unfold trap; rewrite rsum_0; lra|apply trap_le; lia]. }
  unfold trap in H. pose proof (Hinc i Hi). pose proof (Hpos (S i)).
  assert (0 < (nth (S i) xs 0 - nth i xs 0) * ((nth (S i) ys 0 + nth i ys 0) / 2)) by (apply Rmult_lt_0_compat; lra). lra.
Qed.
End Integral.

(** * Sampling *)
Section Sampling.
Variables xs ys : list R.
Hypothesis Hinc : increasing xs.
Hypothesis Hlen : length ys = length xs.
Hypothesis Hn : (2 <= length xs)%nat.
Hypothesis Hpos : forall i, 0 <= nth i ys 0.
Let A := trap xs ys (length xs - 1).
Hypothesis HA : 0 < A.
Definition rcdf : list R := map (fun i => trap xs ys i / trap xs ys (length xs - 1)) (seq 0 (length xs)).
Lemma areas_len : length (areas xs (map Fin ys)) = (length xs - 1)%nat.
Proof. unfold areas. rewrite !zipw_length, diff_length, removelast_len, tl_length, map_length. lia. Qed.
Lemma areas_nth i : (S i < length xs)%nat ->
  nth i (areas xs (map Fin ys)) NaN = Fin ((nth (S i) xs 0 - nth i xs 0) * ((nth (S i) ys 0 + nth i ys 0) / 2)).
Proof.
  intros Hi. unfold areas. rewrite (zipw_nth nmul _ _ i NaN NaN) by (rewrite ?zipw_length, ?diff_length, ?removelast_len, ?tl_length, ?map_length; lia).
  rewrite (diff_nth _ xs i 0) by auto. rewrite (zipw_nth nadd _ _ i NaN NaN) by (rewrite ?removelast_len, ?tl_length, ?map_length; lia).
  rewrite nth_removelast, nth_tl by (rewrite map_length; lia). rewrite !nth_map_Fin by lia. cbn [nadd nmul]. f_equal. field.
Qed.
Lemma cdf_eq : pl_cdf xs (map Fin ys) = map Fin rcdf.
Proof.
  unfold pl_cdf. cbv zeta. rewrite areas_len.
  set (c := Fin 0 :: _).
  assert (E: c = map (fun i => Fin (trap xs ys i)) (seq 0 (length xs))).
  { unfold c. assert (Q: seq 0 (length xs) = 0%nat :: map S (seq 0 (length xs - 1))).
    { rewrite seq_shift. destruct (length xs) as [|n]; [lia|]. simpl. rewrite Nat.sub_0_r. reflexivity. }
    rewrite Q. cbn [map]. f_equal. rewrite map_map. apply map_ext_in. intros i Hi. apply in_seq in Hi. unfold trap.
    apply nsum_fin. intros j Hj. apply areas_nth. lia. }
  rewrite E. clear c E.
  assert (L: last (map (fun i => Fin (trap xs ys i)) (seq 0 (length xs))) NaN = Fin A).
  { rewrite last_nth, map_length, seq_length. rewrite (nth_indep _ NaN (Fin (trap xs ys 0))) by (rewrite map_length, seq_length; lia).
    rewrite (map_nth (fun i => Fin (trap xs ys i))), seq_nth by lia. reflexivity. }
  rewrite L. unfold rcdf. rewrite !map_map. apply map_ext. intros i. rewrite ndiv_fin by (apply Rgt_not_eq; auto). reflexivity.
Qed.
Lemma rcdf_nth i : (i < length xs)%nat -> nth i rcdf 0 = trap xs ys i / A.
Proof.
  intros Hi. unfold rcdf. rewrite (nth_indep _ 0 (trap xs ys 0 / A)) by (rewrite map_length, seq_length; auto).
  fold A. rewrite (map_nth (fun i => trap xs ys i / A)), seq_nth by auto. reflexivity.
Qed.
Lemma rcdf_len : length rcdf = length xs.
Proof. unfold rcdf. rewrite map_length, seq_length. reflexivity. Qed.
Lemma rcdf_0 : nth 0 rcdf 0 = 0.
Proof. rewrite rcdf_nth by lia. unfold trap. rewrite rsum_0. unfold Rdiv. ring. Qed.
Lemma rcdf_last : nth (length xs - 1) rcdf 0 = 1.
Proof. rewrite rcdf_nth by lia. unfold A. field. apply Rgt_not_eq. exact HA. Qed.
(** The segment of a random number in [0, 1) and the value it gives. *)
Lemma sample_value u : 0 <= u < 1 -> exists k, (S k < length xs)%nat /\ nth k rcdf 0 <= u < nth (S k) rcdf 0 /\
  pl_sample_continuous xs (map Fin ys) u =
  Fin (nth k xs 0 + (nth (S k) xs 0 - nth k xs 0) / (nth (S k) rcdf 0 - nth k rcdf 0 + / 10 ^ 8) * (u - nth k rcdf 0)).
Proof.
  intros Hu. unfold pl_sample_continuous. cbv zeta. rewrite cdf_eq. destruct (search_right_spec rcdf u) as (H1 & H2 & H3). rewrite rcdf_len in *.
  set (i := search_right (map Fin rcdf) u) in *.
  assert (Hi0: (1 <= i)%nat). { destruct i; [|lia]. specialize (H3 ltac:(lia)). rewrite rcdf_0 in H3. lra. }
  assert (HiL: (i < length xs)%nat).
  { destruct (Nat.eq_dec i (length xs)) as [E|]; [|lia]. specialize (H2 (length xs - 1)%nat ltac:(lia)). rewrite rcdf_last in H2. lra. }
  destruct i as [|k]; [lia|]. exists k. split; auto. split; [split; [apply H2; lia|apply H3; auto]|].
  replace (Nat.min (Nat.max (S k) 1) (length xs - 1)) with (S k) by lia. replace (S k - 1)%nat with k by lia.
  rewrite !nth_map_Fin by (rewrite rcdf_len; lia). cbn [nsub nneg nadd].
  specialize (H2 k ltac:(lia)). specialize (H3 HiL). assert (0 < / 10 ^ 8) by (apply Rinv_0_lt_compat, pow_lt; lra).
  rewrite ndiv_fin by lra. reflexivity.
Qed.
Lemma sample_in u k : (S k < length xs)%nat -> nth k rcdf 0 <= u < nth (S k) rcdf 0 ->
  nth k xs 0 <= nth k xs 0 + (nth (S k) xs 0 - nth k xs 0) / (nth (S k) rcdf 0 - nth k rcdf 0 + / 10 ^ 8) * (u - nth k rcdf 0) <= nth (S k) xs 0.
Proof.
  intros Hk Hr. pose proof (Hinc k Hk) as P. assert (Pe: 0 < / 10 ^ 8) by (apply Rinv_0_lt_compat, pow_lt; lra).
  set (d := nth (S k) rcdf 0 - nth k rcdf 0 + / 10 ^ 8) in *. assert (Hd: u - nth k rcdf 0 < d) by (unfold d; lra). assert (0 < d) by lra.
  set (w := u - nth k rcdf 0) in *. assert (0 <= w) by (unfold w; lra). set (l := nth (S k) xs 0 - nth k xs 0). assert (0 < l) by (unfold l; lra).
  assert (0 <= l / d * w <= l); [|unfold l in *; lra]. split.
  - apply Rmult_le_pos; auto. apply Rmult_le_pos; [lra|left; apply Rinv_0_lt_compat; auto].
  - apply Rmult_le_reg_r with d; auto. replace (l / d * w * d) with (l * w) by (field; lra). apply Rmult_le_compat_l; lra.
Qed.
Lemma sample_range u : 0 <= u < 1 -> exists k t, (S k < length xs)%nat /\ pl_sample_continuous xs (map Fin ys) u = Fin t /\ nth k xs 0 <= t <= nth (S k) xs 0.
Proof. intros Hu. destruct (sample_value u Hu) as (k & Hk & Hr & E). exists k. eexists. split; [auto|]. split; [exact E|]. apply sample_in; auto. Qed.
End Sampling.
