(** The scopes drawn by a FactorizedLeaf are, in every repetition, a partition of the features into
    groups whose sizes differ by at most one. *)
From Coq Require Import List Arith Lia Bool Permutation.
Import ListNotations.
From Verif Require Import Base RSum Num Tensor Prob Layers Circuit Net RefFwd RefSample Leaf Perm RefLeaf Einet RefNet RefEinet.

Lemma group_sizes_length F Fo : length (group_sizes F Fo) = Fo.
Proof. unfold group_sizes. rewrite map_length, seq_length. auto. Qed.
Lemma group_sizes_In F Fo x : In x (group_sizes F Fo) -> x = F / Fo \/ x = F / Fo + 1.
Proof.
  unfold group_sizes. rewrite in_map_iff. intros (i & <- & _). destruct (i <? F - F / Fo * Fo); auto.
Qed.
Lemma list_sum_cons a l : list_sum (a :: l) = a + list_sum l.
Proof. reflexivity. Qed.
Lemma list_sum_two k a : forall n s, 
  list_sum (map (fun i => if i <? k then a + 1 else a) (seq s n)) = n * a + (min (s + n) k - min s k).
Proof.
  induction n; intros s; [cbn; lia|]. change (seq s (S n)) with (s :: seq (S s) n). cbn [map]. rewrite list_sum_cons, IHn. destruct (Nat.ltb_spec s k); lia.
Qed.
Lemma group_sizes_sum F Fo : 0 < Fo -> list_sum (group_sizes F Fo) = F.
Proof.
  intros H. unfold group_sizes. rewrite list_sum_two. pose proof (Nat.div_mod F Fo). pose proof (Nat.mod_upper_bound F Fo). nia.
Qed.
Lemma list_sum_perm l l' : Permutation l l' -> list_sum l = list_sum l'.
Proof. induction 1; simpl; lia. Qed.

(** The group of a position. *)
Fixpoint slot (sizes : list nat) (p : nat) : nat :=
  match sizes with [] => 0 | s :: t => if p <? s then 0 else S (slot t (p - s)) end.
Lemma offset_0 sizes : offset sizes 0 = 0.
Proof. reflexivity. Qed.
Lemma offset_S s t o : offset (s :: t) (S o) = s + offset t o.
Proof. reflexivity. Qed.
Lemma slot_ok sizes : forall p, p < list_sum sizes ->
  slot sizes p < length sizes /\ offset sizes (slot sizes p) <= p < offset sizes (slot sizes p) + nth (slot sizes p) sizes 0.
Proof.
  induction sizes as [|s t IH]; intros p Hp; cbn [slot length] in *; [simpl in Hp; lia|].
  destruct (Nat.ltb_spec p s).
  - rewrite offset_0. cbn [nth]. lia.
  - destruct (IH (p - s)) as [H1 H2]; [rewrite list_sum_cons in Hp; lia|]. rewrite offset_S. cbn [nth]. lia.
Qed.
Lemma slot_unique sizes : forall o p, o < length sizes -> offset sizes o <= p < offset sizes o + nth o sizes 0 -> slot sizes p = o.
Proof.
  induction sizes as [|s t IH]; intros o p Ho Hp; cbn [length slot] in *; [lia|]. destruct o as [|o].
  - rewrite offset_0 in Hp. cbn [nth] in Hp. destruct (Nat.ltb_spec p s); lia.
  - rewrite offset_S in Hp. cbn [nth] in Hp. destruct (Nat.ltb_spec p s); [lia|]. f_equal. apply IH; lia.
Qed.
Lemma offset_le sizes o : offset sizes o <= list_sum sizes.
Proof.
  unfold offset. rewrite <- (firstn_skipn o sizes) at 2. rewrite list_sum_app. lia.
Qed.
Lemma offset_next sizes : forall o, o < length sizes -> offset sizes o + nth o sizes 0 = offset sizes (S o).
Proof.
  induction sizes as [|s t IH]; intros o Ho; cbn [length] in *; [lia|]. destruct o as [|o].
  - rewrite offset_S, !offset_0. cbn [nth]. lia.
  - rewrite !offset_S. cbn [nth]. rewrite <- IH by lia. lia.
Qed.
Lemma offset_all sizes : offset sizes (length sizes) = list_sum sizes.
Proof. unfold offset. rewrite firstn_all. auto. Qed.

Lemma nth_firstn_lt (l : list nat) : forall w i, i < w -> nth i (firstn w l) 0 = nth i l 0.
Proof. induction l as [|a l IH]; intros [|w] [|i] H; cbn; auto; try lia. apply IH. lia. Qed.
Lemma nth_skipn_add (l : list nat) : forall low i, nth i (skipn low l) 0 = nth (low + i) l 0.
Proof. induction l as [|a l IH]; intros [|low] i; cbn; auto. destruct i; auto. Qed.

Lemma nodup_app (l l' : list nat) : NoDup (l ++ l') -> NoDup l' /\ forall x, In x l -> ~ In x l'.
Proof.
  induction l as [|a l IH]; simpl; intros H; [split; auto|]. inversion H; subst. destruct (IH H3) as [A B]. split; auto.
  intros x [->|Hx]; auto. intros Hi. apply H2. apply in_or_app. auto.
Qed.

Section Scopes.
Variables (F Fo : nat) (sizes : list nat) (perm : list nat).
Hypothesis HFo : 0 < Fo.
Hypothesis Hs : Permutation sizes (group_sizes F Fo).
Hypothesis Hp : is_perm perm F.

Lemma sizes_length : length sizes = Fo.
Proof. rewrite (Permutation_length Hs). apply group_sizes_length. Qed.
Lemma sizes_sum : list_sum sizes = F.
Proof. rewrite (list_sum_perm _ _ Hs). apply group_sizes_sum. auto. Qed.

(** The slice of positions of a group. *)
Lemma group_width o : o < Fo -> (if o =? Fo - 1 then F else offset sizes o + nth o sizes 0) - offset sizes o = nth o sizes 0.
Proof.
  intros Ho. destruct (Nat.eqb_spec o (Fo - 1)) as [E|]; [|lia].
  pose proof (offset_next sizes o) as H. rewrite sizes_length in H. specialize (H Ho).
  replace (S o) with (length sizes) in H by (rewrite sizes_length; lia). rewrite offset_all, sizes_sum in H. lia.
Qed.
Lemma slice_nth (l : list nat) low w f : NoDup l -> 
  In f (firstn w (skipn low l)) <-> exists p, low <= p < low + w /\ p < length l /\ nth p l 0 = f.
Proof.
  intros _. split.
  - intros H. apply In_nth with (d := 0) in H as (i & Hi & E).
    rewrite firstn_length, skipn_length in Hi. exists (low + i). split; [lia|]. split; [lia|].
    rewrite <- E, nth_firstn_lt, nth_skipn_add by lia. auto.
  - intros (p & Hp1 & Hp2 & <-). replace p with (low + (p - low)) by lia.
    rewrite <- nth_skipn_add, <- (nth_firstn_lt _ w) by lia. apply nth_In. rewrite firstn_length, skipn_length. lia.
Qed.
Lemma perm_nodup : NoDup perm.
Proof. eapply Permutation_NoDup; [symmetry; exact Hp|apply seq_NoDup]. Qed.

Definition scope_group (f : nat) : nat := slot sizes (nth f (argsort perm) 0).
Lemma in_group_iff f o : f < F -> o < Fo -> in_group F Fo sizes perm f o = true <-> scope_group f = o.
Proof.
  intros Hf Ho. unfold in_group. rewrite group_width by auto. rewrite existsb_eqb_In, slice_nth by apply perm_nodup.
  destruct (argsort_nth perm F f Hp Hf) as [A B]. unfold scope_group.
  rewrite (is_perm_length _ _ Hp). split.
  - intros (p & H1 & H2 & E). apply slot_unique; [rewrite sizes_length; auto|].
    assert (nth f (argsort perm) 0 = p) by (apply (is_perm_inj perm F); auto; congruence). lia.
  - intros <-. exists (nth f (argsort perm) 0). split; [|auto].
    apply (slot_ok sizes). rewrite sizes_sum. auto.
Qed.
Lemma scope_group_lt f : f < F -> scope_group f < Fo.
Proof.
  intros Hf. unfold scope_group. rewrite <- sizes_length. apply slot_ok. rewrite sizes_sum. apply argsort_nth; auto.
Qed.

(** Number of features of a group. *)
Lemma group_count o : o < Fo -> length (filter (fun f => in_group F Fo sizes perm f o) (seq 0 F)) = nth o sizes 0.
Proof.
  intros Ho. rewrite (Permutation_length (perm_filter _ _ _ (Permutation_sym Hp))).
  unfold in_group. rewrite group_width by auto. set (w := nth o sizes 0). set (low := offset sizes o).
  assert (Hw: low + w <= length perm).
  { rewrite (is_perm_length _ _ Hp). unfold low, w. rewrite offset_next by (rewrite sizes_length; auto).
    rewrite <- sizes_sum. apply offset_le. }
  assert (ND := perm_nodup). clearbody low w.
  set (sl := firstn w (skipn low perm)).
  assert (E: perm = firstn low perm ++ sl ++ skipn w (skipn low perm)).
  { unfold sl. rewrite (firstn_skipn w), (firstn_skipn low). auto. }
  assert (L: length sl = w) by (unfold sl; rewrite firstn_length, skipn_length; lia).
  assert (Z: forall l, (forall x, In x l -> ~ In x sl) -> filter (fun f => existsb (Nat.eqb f) sl) l = []).
  { induction l as [|x l IH]; intros Hx; cbn [filter]; auto. destruct (existsb (Nat.eqb x) sl) eqn:Ex.
    - apply existsb_eqb_In in Ex. exfalso. apply (Hx x); simpl; auto.
    - apply IH. intros; apply Hx; simpl; auto. }
  assert (Y: forall l, (forall x, In x l -> In x sl) -> filter (fun f => existsb (Nat.eqb f) sl) l = l).
  { induction l as [|x l IH]; intros Hx; cbn [filter]; auto.
    assert (Ex: existsb (Nat.eqb x) sl = true) by (apply existsb_eqb_In; apply Hx; simpl; auto). rewrite Ex, IH; auto.
    intros; apply Hx; simpl; auto. }
  rewrite E at 1. rewrite !filter_app. rewrite (Y sl) by auto.
  rewrite E in ND. destruct (nodup_app _ _ ND) as [ND2 D1]. destruct (nodup_app _ _ ND2) as [_ D2].
  rewrite (Z (firstn low perm)), (Z (skipn w (skipn low perm))).
  - rewrite app_nil_r. simpl. auto.
  - intros x Hx Hi. apply (D2 x); auto.
  - intros x Hx Hi. apply (D1 x); auto. apply in_or_app. auto.
Qed.
Lemma group_size_bounds o : o < Fo -> nth o sizes 0 = F / Fo \/ nth o sizes 0 = F / Fo + 1.
Proof.
  intros Ho. apply group_sizes_In. eapply Permutation_in; [exact Hs|]. apply nth_In. rewrite sizes_length. auto.
Qed.
End Scopes.

(** What a scope tensor must satisfy, in its own terms: entries 0 or 1, every feature in exactly one
    group in every repetition, group sizes F / Fo or F / Fo + 1. *)
Lemma make_scopes_grp F Fo R sizes perms : 0 < Fo -> Permutation sizes (group_sizes F Fo) ->
  (forall r, r < R -> is_perm (perms r) F) ->
  scopes_grp (make_scopes F Fo R sizes perms) F Fo R (find_group (make_scopes F Fo R sizes perms) Fo).
Proof.
  intros HFo Hs Hp. set (sc := make_scopes F Fo R sizes perms).
  assert (G: forall r f o, r < R -> f < F -> o < Fo -> get sc [f; o; r] = if scope_group sizes (perms r) f =? o then 1 else 0).
  { intros r f o Hr Hf Ho. unfold sc, make_scopes. cbn [get].
    pose proof (in_group_iff F Fo sizes (perms r) HFo Hs (Hp r Hr) f o Hf Ho) as I.
    destruct (in_group F Fo sizes (perms r) f o), (Nat.eqb_spec (scope_group sizes (perms r) f) o); auto.
    - exfalso. tauto.
    - exfalso. destruct I as [_ I]. specialize (I e). discriminate. }
  assert (FG: forall r f, r < R -> f < F -> find_group sc Fo r f = scope_group sizes (perms r) f).
  { intros r f Hr Hf. unfold find_group. pose proof (scope_group_lt F Fo sizes (perms r) HFo Hs (Hp r Hr) f Hf) as L.
    rewrite (filter_ext_in _ (fun o => o =? scope_group sizes (perms r) f)).
    - clear - L. revert L. generalize (scope_group sizes (perms r) f) as s. intros s L.
      replace Fo with (s + (Fo - s)) by lia. rewrite seq_app, filter_app.
      assert (Z: filter (fun o => o =? s) (seq 0 s) = []).
      { rewrite (filter_ext_in _ (fun _ => false)); [induction (seq 0 s); auto|]. intros a Ha. apply in_seq in Ha. apply Nat.eqb_neq. lia. }
      rewrite Z. cbn [app plus]. destruct (Fo - s) eqn:E; [lia|]. cbn [seq filter]. rewrite Nat.eqb_refl. reflexivity.
    - intros o Ho. apply in_seq in Ho. rewrite G by (auto; lia). destruct (Nat.eqb_spec (scope_group sizes (perms r) f) o) as [->|N].
      + rewrite !Nat.eqb_refl. auto.
      + cbn [Nat.eqb]. symmetry. apply Nat.eqb_neq. auto. }
  split; [reflexivity|]. split.
  - intros r f Hr Hf. rewrite FG by auto. apply (scope_group_lt F Fo); auto.
  - intros r f o Hr Hf Ho. rewrite FG by auto. apply G; auto.
Qed.

Theorem make_scopes_partition F Fo R sizes perms : 0 < Fo -> Fo <= F -> Permutation sizes (group_sizes F Fo) ->
  (forall r, r < R -> is_perm (perms r) F) ->
  forall r, r < R ->
  (forall f, f < F -> exists o, o < Fo /\ get (make_scopes F Fo R sizes perms) [f; o; r] = 1 /\
      forall o', o' < Fo -> o' <> o -> get (make_scopes F Fo R sizes perms) [f; o'; r] = 0) /\
  (forall o, o < Fo ->
     let n := length (filter (fun f => get (make_scopes F Fo R sizes perms) [f; o; r] =? 1) (seq 0 F)) in
     0 < n /\ (n = F / Fo \/ n = F / Fo + 1)).
Proof.
  intros HFo HF Hs Hp r Hr. pose proof (make_scopes_grp F Fo R sizes perms HFo Hs Hp) as (_ & H1 & H2). split.
  - intros f Hf. exists (find_group (make_scopes F Fo R sizes perms) Fo r f). split; [auto|]. split.
    + rewrite H2 by auto. rewrite Nat.eqb_refl. auto.
    + intros o' Ho' Hne. rewrite H2 by auto. destruct (Nat.eqb_spec (find_group (make_scopes F Fo R sizes perms) Fo r f) o'); [congruence|auto].
  - intros o Ho n. assert (E: n = nth o sizes 0).
    { unfold n. rewrite <- (group_count F Fo sizes (perms r) HFo Hs (Hp r Hr) o Ho). f_equal. apply filter_ext. intros f.
      unfold make_scopes. cbn [get]. destruct (in_group F Fo sizes (perms r) f o); auto. }
    rewrite E. pose proof (group_size_bounds F Fo sizes Hs o Ho) as B. split; auto.
    assert (0 < F / Fo) by (apply Nat.div_str_pos; lia). lia.
Qed.
