(** A whole network: leaf values grouped into bottom features, sum-product layers, mixture over
    repetitions.  Normalization, marginalization and monotonicity of its value. *)
From Coq Require Import List Arith Lia Bool Reals Lra.
Import ListNotations.
From Verif Require Import Base RSum Circuit Tensor.
Local Open Scope R_scope.

Record cnet : Type := mkN {
  nF : nat; nC : nat; nL : nat; nR : nat; nD : nat; nCls : nat;
  nls : list ulayer;
  ngroup : nat -> nat -> nat;   (* repetition, feature -> bottom feature *)
  nmix : nat -> nat -> R }.     (* class, repetition -> weight *)

Definition leaves := nat -> nat -> nat -> nat -> R.   (* channel, feature, leaf, repetition *)

Definition leafval (G : cnet) (q : leaves) : vals := fun d l r =>
  rprod (nF G) (fun f => if Nat.eqb (ngroup G r f) d then rprod (nC G) (fun c => q c f l r) else 1).
Definition neteval (G : cnet) (q : leaves) (y : nat) : R :=
  rsum (nR G) (fun r => nmix G y r * evals (nls G) (leafval G q) 0%nat y r).

Record cnet_wf (G : cnet) : Prop := {
  nw_chain : uchain (nR G) (nls G) (nD G) (nL G) 1 (nCls G);
  nw_group : forall r f, (r < nR G)%nat -> (f < nF G)%nat -> (ngroup G r f < nD G)%nat;
  nw_mix_pos : forall y r, (y < nCls G)%nat -> (r < nR G)%nat -> 0 < nmix G y r;
  nw_mix_sum : forall y, (y < nCls G)%nat -> rsum (nR G) (nmix G y) = 1 }.

Definition qagree (G : cnet) (q q' : leaves) : Prop :=
  forall c f l r, (c < nC G)%nat -> (f < nF G)%nat -> (l < nL G)%nat -> (r < nR G)%nat -> q c f l r = q' c f l r.

Lemma leafval_ext G q q' : qagree G q q' -> vagree (nD G) (nL G) (nR G) (leafval G q) (leafval G q').
Proof.
  intros H d l r Hd Hl Hr. unfold leafval. apply rprod_ext. intros f Hf.
  destruct (Nat.eqb _ _); auto. apply rprod_ext. intros c Hc. auto.
Qed.
Lemma neteval_ext G q q' y : cnet_wf G -> (y < nCls G)%nat -> qagree G q q' -> neteval G q y = neteval G q' y.
Proof.
  intros Hw Hy H. unfold neteval. apply rsum_ext. intros r Hr. f_equal.
  eapply (evals_ext (nR G)); [apply (nw_chain _ Hw)|apply leafval_ext; auto| | |]; auto.
Qed.

Lemma leafval_pos G q :
  (forall c f l r, (c < nC G)%nat -> (f < nF G)%nat -> (l < nL G)%nat -> (r < nR G)%nat -> 0 < q c f l r) ->
  vpos (nD G) (nL G) (nR G) (leafval G q).
Proof.
  intros H d l r Hd Hl Hr. unfold leafval. apply rprod_pos. intros f Hf.
  destruct (Nat.eqb _ _); [|lra]. apply rprod_pos. intros c Hc. auto.
Qed.
Lemma nR_pos G y : cnet_wf G -> (y < nCls G)%nat -> (0 < nR G)%nat.
Proof. intros Hw Hy. pose proof (nw_mix_sum _ Hw y Hy). destruct (nR G); [rewrite rsum_0 in H; lra|lia]. Qed.
Lemma neteval_pos G q y : cnet_wf G -> (y < nCls G)%nat ->
  (forall c f l r, (c < nC G)%nat -> (f < nF G)%nat -> (l < nL G)%nat -> (r < nR G)%nat -> 0 < q c f l r) ->
  0 < neteval G q y.
Proof.
  intros Hw Hy H. unfold neteval. apply rsum_pos; [eapply nR_pos; eauto|]. intros r Hr.
  apply Rmult_lt_0_compat; [apply (nw_mix_pos _ Hw); auto|].
  eapply (evals_pos (nR G)); [apply (nw_chain _ Hw)|apply leafval_pos; auto| | |]; auto.
Qed.

(** All leaf values one. *)
Lemma neteval_one G q y : cnet_wf G -> (y < nCls G)%nat -> qagree G q (fun _ _ _ _ => 1) -> neteval G q y = 1.
Proof.
  intros Hw Hy H. unfold neteval.
  rewrite (rsum_ext _ _ (nmix G y)); [apply (nw_mix_sum _ Hw); auto|]. intros r Hr.
  rewrite (evals_one (nR G) (nls G) (nD G) (nL G) 1 (nCls G)); auto; try lra.
  - apply (nw_chain _ Hw).
  - intros d l r' Hd Hl Hr'. rewrite (leafval_ext G q (fun _ _ _ _ => 1)); auto. unfold leafval.
    transitivity (rprod (nF G) (fun _ => 1)); [|apply rprod_one]. apply rprod_ext. intros f Hf.
    destruct (Nat.eqb _ _); auto. apply rprod_one.
Qed.

(** Monotonicity. *)
Lemma neteval_mono G q q' y : cnet_wf G -> (y < nCls G)%nat ->
  (forall c f l r, (c < nC G)%nat -> (f < nF G)%nat -> (l < nL G)%nat -> (r < nR G)%nat -> 0 <= q c f l r <= q' c f l r) ->
  neteval G q y <= neteval G q' y.
Proof.
  intros Hw Hy H. unfold neteval. apply rsum_le. intros r Hr.
  apply Rmult_le_compat_l; [left; apply (nw_mix_pos _ Hw); auto|].
  apply (evals_mono (nR G) (nls G) (nD G) (nL G) 1 (nCls G)); auto; [apply (nw_chain _ Hw)|].
  intros d l r' Hd Hl Hr'. unfold leafval. split.
  - apply rprod_nonneg. intros f Hf. destruct (Nat.eqb _ _); [|lra]. apply rprod_nonneg. intros c Hc. apply H; auto.
  - apply rprod_le. intros f Hf. destruct (Nat.eqb _ _); [|lra]. split.
    + apply rprod_nonneg. intros c Hc. apply H; auto.
    + apply rprod_le. intros c Hc. apply H; auto.
Qed.

(** * Linearity in one (channel, feature) entry *)
Definition updq (q : leaves) (c0 f0 : nat) (u : nat -> nat -> R) : leaves := fun c f l r =>
  if Nat.eqb c c0 && Nat.eqb f f0 then u l r else q c f l r.

Lemma leafval_lin G q c0 f0 : (c0 < nC G)%nat -> (f0 < nF G)%nat ->
  (forall c f l r, (c < nC G)%nat -> (f < nF G)%nat -> (l < nL G)%nat -> (r < nR G)%nat -> 0 <= q c f l r) ->
  vlin (nL G) (nD G) (nL G) (nR G) (fun r => ngroup G r f0) (fun u => leafval G (updq q c0 f0 u)).
Proof.
  intros Hc Hf Hq.
  exists (fun s r l => if Nat.eqb l s then
      rprod (nC G) (fun c => if Nat.eqb c c0 then 1 else q c f0 s r) *
      rprod (nF G) (fun f => if Nat.eqb f f0 then 1 else
         if Nat.eqb (ngroup G r f) (ngroup G r f0) then rprod (nC G) (fun c => q c f s r) else 1)
      else 0).
  exists (leafval G q). split; [|split].
  - intros s r l Hs Hr Hl. destruct (Nat.eqb l s); [|lra]. apply Rmult_le_pos.
    + apply rprod_nonneg. intros c Hc'. destruct (Nat.eqb c c0); [lra|auto].
    + apply rprod_nonneg. intros f Hf'. destruct (Nat.eqb f f0); [lra|].
      destruct (Nat.eqb _ _); [|lra]. apply rprod_nonneg. auto.
  - intros d s r Hd Hs Hr. apply rprod_nonneg. intros f Hf'. destruct (Nat.eqb _ _); [|lra].
    apply rprod_nonneg. auto.
  - intros u d s r Hd Hs Hr. unfold leafval. destruct (Nat.eqb_spec d (ngroup G r f0)) as [->|Hne].
    + rewrite (rsum_ext _ _ (fun l => (if Nat.eqb l s then 1 else 0) * (u l r *
        (rprod (nC G) (fun c => if Nat.eqb c c0 then 1 else q c f0 s r) *
         rprod (nF G) (fun f => if Nat.eqb f f0 then 1 else
         if Nat.eqb (ngroup G r f) (ngroup G r f0) then rprod (nC G) (fun c => q c f s r) else 1))))).
      2:{ intros l Hl. destruct (Nat.eqb l s); ring. }
      rewrite rsum_indicator by auto.
      rewrite (rprod_split (nF G) f0) by auto. rewrite Nat.eqb_refl.
      rewrite (rprod_split (nC G) c0) by auto.
      unfold updq. rewrite !Nat.eqb_refl. simpl.
      rewrite Rmult_assoc. f_equal. f_equal.
      * apply rprod_ext. intros c Hc'. destruct (Nat.eqb c c0); auto.
      * apply rprod_ext. intros f Hf'. destruct (Nat.eqb_spec f f0); auto. destruct (Nat.eqb _ _); auto.
        apply rprod_ext. intros c Hc'. rewrite andb_false_r. auto.
    + apply rprod_ext. intros f Hf'. destruct (Nat.eqb_spec (ngroup G r f) d); auto.
      apply rprod_ext. intros c Hc'. unfold updq. destruct (Nat.eqb_spec f f0); [subst; congruence|].
      rewrite andb_false_r. auto.
Qed.

Lemma neteval_linear G q c0 f0 y : cnet_wf G -> (y < nCls G)%nat -> (c0 < nC G)%nat -> (f0 < nF G)%nat ->
  (forall c f l r, (c < nC G)%nat -> (f < nF G)%nat -> (l < nL G)%nat -> (r < nR G)%nat -> 0 <= q c f l r) ->
  exists al : nat -> nat -> R,
    (forall r l, (r < nR G)%nat -> (l < nL G)%nat -> 0 <= al r l) /\
    forall u, neteval G (updq q c0 f0 u) y = rsum (nR G) (fun r => rsum (nL G) (fun l => al r l * u l r)).
Proof.
  intros Hw Hy Hc Hf Hq.
  destruct (evals_lin (nR G) (nL G) (nls G) _ _ _ _ (fun r => ngroup G r f0)
              (fun u => leafval G (updq q c0 f0 u)) (nw_chain _ Hw)) as (a & b & Ha & Hb & Hv).
  - intros r Hr. apply (nw_group _ Hw); auto.
  - apply leafval_lin; auto.
  - exists (fun r l => nmix G y r * a y r l). split.
    + intros r l Hr Hl. apply Rmult_le_pos; [left; apply (nw_mix_pos _ Hw); auto|apply Ha; auto].
    + intros u. unfold neteval. apply rsum_ext. intros r Hr. rewrite Hv by auto.
      assert (Ho: (owner (nls G) (ngroup G r f0) < 1)%nat).
      { eapply owner_lt; [apply (nw_chain _ Hw)|apply (nw_group _ Hw); auto]. }
      replace (owner (nls G) (ngroup G r f0)) with 0%nat by lia. simpl.
      rewrite <- rsum_scal_l. apply rsum_ext. intros. ring.
Qed.

(** Summing the network over the values of one entry equals evaluating it at the summed leaf. *)
Lemma neteval_sum_one G q c0 f0 y K (p : nat -> nat -> nat -> R) : cnet_wf G -> (y < nCls G)%nat ->
  (c0 < nC G)%nat -> (f0 < nF G)%nat ->
  (forall c f l r, (c < nC G)%nat -> (f < nF G)%nat -> (l < nL G)%nat -> (r < nR G)%nat -> 0 <= q c f l r) ->
  rsum K (fun v => neteval G (updq q c0 f0 (p v)) y) =
  neteval G (updq q c0 f0 (fun l r => rsum K (fun v => p v l r))) y.
Proof.
  intros Hw Hy Hc Hf Hq. destruct (neteval_linear G q c0 f0 y) as (al & _ & Hal); auto.
  rewrite Hal. rewrite (rsum_ext _ _ _ (fun v _ => Hal (p v))).
  rewrite rsum_swap. apply rsum_ext. intros r Hr. rewrite rsum_swap. apply rsum_ext. intros l Hl.
  rewrite rsum_scal_l. reflexivity.
Qed.

(** * Partial data: [None] is a missing entry *)
Definition pdata (V : Type) := nat -> nat -> option V.
Definition lval {V} (p : nat -> nat -> nat -> nat -> V -> R) (x : pdata V) : leaves := fun c f l r =>
  match x c f with None => 1 | Some v => p c f l r v end.
Definition updx {V} (x : pdata V) (c0 f0 : nat) (v : option V) : pdata V := fun c f =>
  if Nat.eqb c c0 && Nat.eqb f f0 then v else x c f.

Lemma lval_updx {V} (p : nat -> nat -> nat -> nat -> V -> R) x c0 f0 v c f l r :
  lval p (updx x c0 f0 v) c f l r =
  updq (lval p x) c0 f0 (fun l r => match v with None => 1 | Some v => p c0 f0 l r v end) c f l r.
Proof.
  unfold lval, updx, updq. destruct (Nat.eqb_spec c c0), (Nat.eqb_spec f f0); simpl; subst; auto.
Qed.

Section Marginal.
Variable G : cnet.
Hypothesis Hw : cnet_wf G.
Variable V : Type.
Variable p : nat -> nat -> nat -> nat -> V -> R.
Hypothesis Hp : forall c f l r v, (c < nC G)%nat -> (f < nF G)%nat -> (l < nL G)%nat -> (r < nR G)%nat -> 0 <= p c f l r v.

Lemma lval_nonneg x c f l r : (c < nC G)%nat -> (f < nF G)%nat -> (l < nL G)%nat -> (r < nR G)%nat -> 0 <= lval p x c f l r.
Proof. intros. unfold lval. destruct (x c f); [apply Hp; auto|lra]. Qed.

(** Any linear notion of integral, given as a relation [Int f a]: "the integral of [f] is [a]". *)
Lemma net_integral (Int : (V -> R) -> R -> Prop) x c0 f0 y :
  (forall f g a, (forall v, f v = g v) -> Int f a -> Int g a) ->
  (forall f g a b, Int f a -> Int g b -> Int (fun v => f v + g v) (a + b)) ->
  (forall k f a, Int f a -> Int (fun v => k * f v) (k * a)) ->
  (y < nCls G)%nat -> (c0 < nC G)%nat -> (f0 < nF G)%nat ->
  (forall l r, (l < nL G)%nat -> (r < nR G)%nat -> Int (p c0 f0 l r) 1) ->
  Int (fun v => neteval G (lval p (updx x c0 f0 (Some v))) y) (neteval G (lval p (updx x c0 f0 None)) y).
Proof.
  intros Iext Iplus Iscal Hy Hc Hf Hone.
  destruct (neteval_linear G (lval p x) c0 f0 y) as (al & _ & Hal); auto.
  { intros. apply lval_nonneg; auto. }
  assert (HR: (0 < nR G)%nat) by (eapply nR_pos; eauto).
  assert (E: forall v, neteval G (lval p (updx x c0 f0 v)) y =
     rsum (nR G) (fun r => rsum (nL G) (fun l => al r l * match v with None => 1 | Some v => p c0 f0 l r v end))).
  { intros v. rewrite <- (Hal (fun l r => match v with None => 1 | Some v => p c0 f0 l r v end)).
    apply neteval_ext; auto. intros c f l r _ _ _ _. apply lval_updx. }
  apply Iext with (f := fun v => rsum (nR G) (fun r => rsum (nL G) (fun l => al r l * p c0 f0 l r v))).
  { intros v. symmetry. apply (E (Some v)). }
  rewrite (E None).
  assert (Z: forall n (h : nat -> V -> R) (m : nat -> R), (0 < n)%nat ->
    (forall i, (i < n)%nat -> Int (h i) (m i)) -> Int (fun v => rsum n (fun i => h i v)) (rsum n m)).
  { induction n; intros h m Hn Hi; [lia|]. destruct n.
    - apply Iext with (f := h 0%nat); [intros; rewrite rsum_S, rsum_0; lra|].
      rewrite rsum_S, rsum_0, Rplus_0_l. apply Hi; lia.
    - rewrite rsum_S. apply Iext with (f := fun v => rsum (S n) (fun i => h i v) + h (S n) v).
      + intros. rewrite (rsum_S (S n)). auto.
      + apply Iplus; [apply IHn; auto; lia|apply Hi; lia]. }
  destruct (Nat.eq_dec (nL G) 0) as [HL|HL].
  - (* no leaves at all: impossible, the network value would be 0 but is positive *)
    exfalso. pose proof (neteval_pos G (lval p (updx x c0 f0 None)) y Hw Hy) as P.
    rewrite (E None), HL in P. rewrite (rsum_ext _ _ (fun _ => 0)), rsum_zero in P by (intros; apply rsum_0).
    assert (0 < 0); [|lra]. apply P. intros; lia.
  - apply (Z (nR G) (fun r v => rsum (nL G) (fun l => al r l * p c0 f0 l r v))
              (fun r => rsum (nL G) (fun l => al r l * 1))); auto.
    intros r Hr. apply (Z (nL G) (fun l v => al r l * p c0 f0 l r v) (fun l => al r l * 1)); [lia|].
    intros l Hl. apply Iscal. auto.
Qed.
End Marginal.

(** * Discrete data with values [0 .. K-1]: explicit sums over completions *)
Section Discrete.
Variable G : cnet.
Hypothesis Hw : cnet_wf G.
Variable K : nat.
Variable p : nat -> nat -> nat -> nat -> nat -> R.
Hypothesis Hp : forall c f l r v, (c < nC G)%nat -> (f < nF G)%nat -> (l < nL G)%nat -> (r < nR G)%nat -> 0 <= p c f l r v.
Hypothesis Hsum : forall c f l r, (c < nC G)%nat -> (f < nF G)%nat -> (l < nL G)%nat -> (r < nR G)%nat -> rsum K (p c f l r) = 1.

Lemma net_sum_out x c0 f0 y : (y < nCls G)%nat -> (c0 < nC G)%nat -> (f0 < nF G)%nat ->
  rsum K (fun v => neteval G (lval p (updx x c0 f0 (Some v))) y) = neteval G (lval p (updx x c0 f0 None)) y.
Proof.
  intros Hy Hc Hf.
  transitivity (rsum K (fun v => neteval G (updq (lval p x) c0 f0 (fun l r => p c0 f0 l r v)) y)).
  { apply rsum_ext. intros v _. apply neteval_ext; auto. intros c f l r _ _ _ _. apply lval_updx. }
  rewrite (neteval_sum_one G (lval p x) c0 f0 y K (fun v l r => p c0 f0 l r v)); auto.
  2:{ intros. apply (lval_nonneg G nat p Hp); auto. }
  apply neteval_ext; auto. intros c f l r Hc' Hf' Hl Hr. rewrite lval_updx. unfold updq.
  destruct (Nat.eqb _ _ && Nat.eqb _ _); auto.
Qed.

(** A flat vector of [C * F] optional values seen as partial data. *)
Definition unflat {V} (z : nat -> option V) : pdata V := fun c f => z (c * nF G + f)%nat.
(** [agrees z xs]: the full vector [xs] coincides with [z] wherever [z] is present. *)
Definition agrees_at (z : nat -> option nat) (i v : nat) : bool :=
  match z i with None => true | Some w => Nat.eqb w v end.
Fixpoint agrees_from (z : nat -> option nat) (i : nat) (xs : list nat) : bool :=
  match xs with [] => true | v :: xs' => agrees_at z i v && agrees_from z (S i) xs' end.
End Discrete.

(** Enumeration lemma: a function of partial vectors that is the sum over the values of each missing
    entry is the sum over all completions. *)
Lemma enum_completions (T K : nat) (P : (nat -> option nat) -> R) (z : nat -> option nat) :
  (forall z z', (forall i, (i < T)%nat -> z i = z' i) -> P z = P z') ->
  (forall z i, (i < T)%nat -> z i = None ->
     P z = rsum K (fun v => P (fun j => if Nat.eqb j i then Some v else z j))) ->
  (forall i v, (i < T)%nat -> z i = Some v -> (v < K)%nat) ->
  P z = lsum (fun xs => if agrees_from z 0 xs then P (fun i => Some (nth i xs 0%nat)) else 0)
             (all_idx (repeat K T)).
Proof.
  intros Hext Hsum Hz.
  assert (G: forall n m pre, (m + n = T)%nat -> length pre = m ->
    lsum (fun xs => if agrees_from z m xs then P (fun i => Some (nth i (pre ++ xs) 0%nat)) else 0) (all_idx (repeat K n))
    = P (fun i => if Nat.ltb i m then Some (nth i pre 0%nat) else z i)).
  { induction n; intros m pre Hm Hl.
    - cbn [repeat all_idx lsum agrees_from]. rewrite Rplus_0_r. apply Hext. intros i Hi.
      rewrite app_nil_r. destruct (Nat.ltb_spec i m); [auto|lia].
    - cbn [repeat all_idx]. rewrite lsum_flat_map.
      transitivity (rsum K (fun v => if agrees_at z m v then
          P (fun i => if Nat.ltb i (S m) then Some (nth i (pre ++ [v]) 0%nat) else z i) else 0)).
      + unfold rsum. apply lsum_ext. intros v _. rewrite lsum_map. cbn [agrees_from].
        destruct (agrees_at z m v); simpl.
        * rewrite <- (IHn (S m) (pre ++ [v])); [|lia|rewrite app_length; simpl; lia].
          apply lsum_ext. intros xs _. rewrite <- app_assoc. reflexivity.
        * apply lsum_zero.
      + unfold agrees_at. destruct (z m) as [w|] eqn:Ew.
        * assert (w < K)%nat by (eapply Hz; [|eauto]; lia).
          rewrite (rsum_single K w); auto.
          -- rewrite Nat.eqb_refl. apply Hext. intros i Hi.
             destruct (Nat.ltb_spec i (S m)), (Nat.ltb_spec i m); try lia; auto.
             ++ rewrite app_nth1 by lia. auto.
             ++ replace i with m by lia. rewrite app_nth2 by lia. rewrite Hl, Nat.sub_diag. simpl. auto.
          -- intros v _ Hv. destruct (Nat.eqb_spec w v); [congruence|auto].
        * rewrite (Hsum (fun i => if Nat.ltb i m then Some (nth i pre 0%nat) else z i) m); [|lia|].
          2:{ destruct (Nat.ltb_spec m m); [lia|auto]. }
          apply rsum_ext. intros v _. apply Hext. intros i Hi.
          destruct (Nat.eqb_spec i m) as [->|].
          -- destruct (Nat.ltb_spec m (S m)); [|lia]. rewrite app_nth2 by lia. rewrite Hl, Nat.sub_diag. auto.
          -- destruct (Nat.ltb_spec i (S m)), (Nat.ltb_spec i m); try lia; auto. rewrite app_nth1 by lia. auto. }
  specialize (G T 0%nat [] eq_refl eq_refl). simpl in G. rewrite G. apply Hext. intros. auto.
Qed.
