(** C42: product layers. *)
From Coq Require Import List Arith Lia Bool Reals Lra.
Import ListNotations.
From Verif Require Import Base RSum Num Tensor Prob Layers Circuit RefFwd RefSample RefLayer Product.
Local Open Scope R_scope.
Local Arguments Nat.div : simpl never.
Local Arguments Nat.modulo : simpl never.
Local Arguments Nat.mul : simpl never.
Local Arguments Nat.add : simpl never.
Local Arguments Nat.sub : simpl never.
Local Arguments clamp : simpl never.
Local Arguments bdim : simpl never.

(** Number of groups of [k] needed for [n] features. *)
Definition ceil_div (n k : nat) : nat := ((n + k - 1) / k)%nat.

Lemma pad_total n k : (0 < k)%nat -> (n + prod_pad n k = k * ceil_div n k)%nat.
Proof.
  intros Hk. unfold prod_pad, ceil_div.
  pose proof (Nat.div_mod n k ltac:(lia)) as E. pose proof (Nat.mod_upper_bound n k ltac:(lia)) as B.
  destruct (Nat.eq_dec (n mod k) 0) as [Z|Z].
  - rewrite Z, Nat.sub_0_r, Nat.mod_same by lia.
    assert (Q: ((n + k - 1) / k = n / k)%nat) by (symmetry; apply Nat.div_unique with (r := (k - 1)%nat); lia).
    rewrite Q. lia.
  - rewrite Nat.mod_small by lia.
    assert (Q: ((n + k - 1) / k = n / k + 1)%nat) by (symmetry; apply Nat.div_unique with (r := (n mod k - 1)%nat); lia).
    rewrite Q. lia.
Qed.
Lemma group_lt n k i : (i < n)%nat -> (0 < k)%nat -> (i / k < ceil_div n k)%nat.
Proof.
  intros Hi Hk. apply Nat.div_lt_upper_bound; [lia|]. pose proof (pad_total n k Hk). lia.
Qed.

(** Sum over one group as a sum over all features. *)
Lemma group_sum n k o (a : nat -> R) : (0 < k)%nat -> (o < ceil_div n k)%nat ->
  rsum k (fun j => if (k * o + j <? n)%nat then a (k * o + j)%nat else 0) =
  rsum n (fun i => if (i / k =? o)%nat then a i else 0).
Proof.
  intros Hk Ho. set (g := fun i => if (i <? n)%nat then (if (i / k =? o)%nat then a i else 0) else 0).
  assert (E1: rsum n (fun i => if (i / k =? o)%nat then a i else 0) = rsum (n + prod_pad n k) g).
  { rewrite rsum_add. rewrite (rsum_ext (prod_pad n k) _ (fun _ => 0)).
    - rewrite rsum_zero, Rplus_0_r. apply rsum_ext. intros i Hi. unfold g. destruct (Nat.ltb_spec i n); [auto|lia].
    - intros j Hj. unfold g. destruct (Nat.ltb_spec (n + j) n); [lia|auto]. }
  rewrite E1, pad_total, (Nat.mul_comm k (ceil_div n k)), rsum_mul by auto. symmetry.
  rewrite (rsum_single _ o); auto.
  - apply rsum_ext. intros j Hj. unfold g. rewrite (Nat.mul_comm k o), flat_div, Nat.eqb_refl by auto. auto.
  - intros i Hi Hne. rewrite (rsum_ext k _ (fun _ => 0)); [apply rsum_zero|].
    intros j Hj. unfold g. rewrite flat_div by auto. destruct (Nat.eqb_spec i o); [contradiction|]. destruct (_ <? _)%nat; auto.
Qed.

Section Product.
Variables (x : tensor num) (N F C Rn card : nat).
Hypothesis Hcard : (1 <= card <= F)%nat.
Hypothesis Hx : values x N F C Rn.
Let a n c r i := toR (get x [n; i; c; r]).

Lemma x_fin n i c r : (n < N)%nat -> (i < F)%nat -> (c < C)%nat -> (r < Rn)%nat -> get x [n; i; c; r] = Fin (a n c r i).
Proof. intros. destruct Hx as [_ G]. destruct (G n i c r) as (v & E); auto. unfold a. rewrite E. reflexivity. Qed.

Lemma prod_forward_sums : exists y, prod_forward F card x = Ok y /\ shape y = [N; ceil_div F card; C; Rn] /\
  forall n o c r, (n < N)%nat -> (o < ceil_div F card)%nat -> (c < C)%nat -> (r < Rn)%nat ->
    get y [n; o; c; r] = Fin (rsum F (fun i => if (i / card =? o)%nat then a n c r i else 0)).
Proof.
  pose proof Hx as [Hs _]. unfold prod_forward.
  replace (size x 1) with F by (unfold size; rewrite Hs; reflexivity).
  destruct (Nat.eqb_spec card F) as [->|Hne].
  { eexists. split; [reflexivity|].
    assert (E: ceil_div F F = 1%nat).
    { unfold ceil_div. symmetry. apply Nat.div_unique with (r := (F - 1)%nat); lia. }
    rewrite E. split; [unfold tsum_keep, reduce_keep; cbn [shape]; rewrite Hs; reflexivity|].
    intros n o c r Hn Ho Hc Hr. assert (o = 0%nat) by lia. subst o.
    unfold tsum_keep, reduce_keep, size. cbn [get]. rewrite Hs. cbn [nth set_nth].
    apply nsum_fin. intros i Hi. rewrite x_fin by auto. rewrite Nat.div_small by auto. reflexivity. }
  destruct (Nat.eqb_spec card 1) as [->|Hne1].
  { exists x. split; auto.
    assert (E: ceil_div F 1 = F) by (unfold ceil_div; rewrite Nat.div_1_r; lia).
    rewrite E. split; auto. intros n o c r Hn Ho Hc Hr. rewrite x_fin by auto. f_equal.
    rewrite (rsum_single F o); auto; [rewrite Nat.div_1_r, Nat.eqb_refl; auto|].
    intros i Hi Hio. rewrite Nat.div_1_r. destruct (Nat.eqb_spec i o); [contradiction|auto]. }
  pose proof (pad_total F card ltac:(lia)) as PT.
  assert (P: exists xp, (if (0 <? prod_pad F card)%nat then pad_third (prod_pad F card) x else Ok x) = Ok xp /\
    shape xp = [N; (card * ceil_div F card)%nat; C; Rn] /\
    forall n i c r, (n < N)%nat -> (c < C)%nat -> (r < Rn)%nat -> (i < card * ceil_div F card)%nat ->
      get xp [n; i; c; r] = Fin (if (i <? F)%nat then a n c r i else 0)).
  { destruct (Nat.ltb_spec 0 (prod_pad F card)).
    - unfold pad_third, dim, size. rewrite Hs. cbn [length]. change (4 <? 3)%nat with false. cbv iota.
      eexists. split; [reflexivity|]. cbn [shape get]. change (4 - 3)%nat with 1%nat. cbn [nth set_nth].
      split; [rewrite PT; reflexivity|]. intros n i c r Hn Hc Hr Hi.
      destruct (Nat.ltb_spec i F); [apply x_fin; auto|reflexivity].
    - exists x. assert (E: (card * ceil_div F card = F)%nat) by lia. rewrite E. split; auto. split; auto.
      intros n i c r Hn Hc Hr Hi. destruct (Nat.ltb_spec i F); [apply x_fin; auto|lia]. }
  destruct P as (xp & -> & Sp & Gp). cbn [bind]. unfold size4. rewrite Sp. cbn [bind].
  assert (HB: (0 < ceil_div F card)%nat) by (pose proof (group_lt F card 0 ltac:(lia) ltac:(lia)); lia).
  unfold conv_ones. destruct (Nat.ltb_spec (card * ceil_div F card) card) as [Z|Z]; [nia|]. cbn [bind shape].
  assert (E1: ((card * ceil_div F card - card) / card + 1 = ceil_div F card)%nat).
  { replace (card * ceil_div F card - card)%nat with ((ceil_div F card - 1) * card)%nat by nia.
    rewrite Nat.div_mul by lia. lia. }
  assert (E2: (card * ceil_div F card / card = ceil_div F card)%nat) by (rewrite Nat.mul_comm; apply Nat.div_mul; lia).
  rewrite E1, E2, eqb_list_refl. cbn [assert bind]. eexists. split; [reflexivity|]. split; [reflexivity|].
  intros n o c r Hn Ho Hc Hr. cbn [get].
  rewrite (nsum_fin card _ (fun j => if (card * o + j <? F)%nat then a n c r (card * o + j)%nat else 0)).
  - f_equal. apply group_sum; auto; lia.
  - intros j Hj. apply Gp; auto. nia.
Qed.
End Product.

(** ProductLayer: output [o] is the log-product of the input features [i] with [i / card = o];
    every input feature belongs to exactly one output feature; padding contributes nothing. *)
Theorem C42_product x N F C Rn card : (1 <= card <= F)%nat -> values x N F C Rn ->
  exists y, prod_forward F card x = Ok y /\ shape y = [N; ceil_div F card; C; Rn] /\
  (forall n o c r, (n < N)%nat -> (o < ceil_div F card)%nat -> (c < C)%nat -> (r < Rn)%nat ->
    exists l, get y [n; o; c; r] = Fin l /\
      exp l = rprod F (fun i => if (i / card =? o)%nat then vexp x n i c r else 1)) /\
  forall i, (i < F)%nat -> (i / card < ceil_div F card)%nat.
Proof.
  intros Hc Hx. destruct (prod_forward_sums x N F C Rn card Hc Hx) as (y & E & Sy & Gy).
  exists y. split; auto. split; auto. split; [|intros; apply group_lt; lia].
  intros n o c r Hn Ho Hc' Hr. eexists. split; [apply Gy; auto|].
  unfold rsum. rewrite exp_lsum. unfold rprod. apply lprod_ext. intros i _.
  destruct (_ =? _)%nat; [reflexivity|apply exp_0].
Qed.
Print Assumptions C42_product.

(** Sampling from it always raises: the context has no attribute [is_root]. *)
Theorem C42_product_sample_refuted F card nrep c : prod_sample F card nrep c = Err AttributeErr.
Proof. reflexivity. Qed.
Print Assumptions C42_product_sample_refuted.
(** If the context had the attribute, each input feature would get the index of its product. *)
Theorem C42_product_sample_partial F card nrep c N S Rn : (1 <= card <= F)%nat ->
  context_ok c N (ceil_div F card) S Rn ->
  exists o, prod_sample_at (Ok false) F card nrep c = Ok (set_out c o) /\ shape o = [N; F] /\
  forall n i, (n < N)%nat -> (i < F)%nat -> get o [n; i] = get (c_out c) [n; (i / card)%nat].
Proof.
  intros Hc (_ & _ & So & _). unfold prod_sample_at. cbn [bind].
  pose proof (pad_total F card ltac:(lia)) as PT.
  eexists. split; [reflexivity|]. destruct (Nat.eqb_spec (prod_pad F card) 0) as [Z|Z].
  - unfold repeat_interleave, size. cbn [shape get]. rewrite So. cbn [nth set_nth]. split; auto.
    f_equal. f_equal. lia.
  - unfold take, repeat_interleave, size. cbn [shape get]. rewrite So. cbn [nth set_nth]. split; auto.
    f_equal. f_equal. lia.
Qed.
Print Assumptions C42_product_sample_partial.

(** CrossProductLayer, even number of features: channel [i * C + j] of output [d] is the product
    of channel [i] of feature [2d] and channel [j] of feature [2d+1]. *)
Lemma cross_scope_even h j : (j < 2)%nat -> cross_scope (2 * h) j = map (fun i => 2 * i + j)%nat (seq 0 h).
Proof.
  intros Hj. unfold cross_scope.
  replace ((2 * h + 1) / 2)%nat with h by (apply Nat.div_unique with (r := 1%nat); lia).
  apply map_ext_in. intros i Hi. apply in_seq in Hi. destruct (Nat.ltb_spec (2 * i + j) (2 * h)); [auto|lia].
Qed.
Lemma cross_index x N h C Rn j : shape x = [N; (2 * h)%nat; C; Rn] -> (j < 2)%nat ->
  exists t, index_dim 1 (mkT [length (cross_scope (2 * h) j)] (fun idx => nth (nth 0 idx 0%nat) (cross_scope (2 * h) j) 0%nat)) x = Ok t /\
  shape t = [N; h; C; Rn] /\
  forall n d c r, (d < h)%nat -> get t [n; d; c; r] = (get x [n; 2 * d + j; c; r]%nat : num).
Proof.
  intros Hs Hj. rewrite cross_scope_even by auto. unfold index_dim. cbn [shape]. rewrite map_length, seq_length.
  assert (G: forall d, (d < h)%nat -> nth d (map (fun i => 2 * i + j)%nat (seq 0 h)) 0%nat = (2 * d + j)%nat).
  { intros d Hd. apply (nth_map_seq (fun i => 2 * i + j)%nat). auto. }
  replace (forallb _ _) with true.
  - eexists. split; [reflexivity|]. cbn [shape get]. rewrite Hs. cbn [nth set_nth]. split; auto.
    intros n d c r Hd. rewrite G by auto. reflexivity.
  - symmetry. apply forallb_forall. intros i Hi. apply in_seq in Hi. cbn [get nth]. rewrite G by lia.
    apply Nat.ltb_lt. unfold size. rewrite Hs. cbn [nth]. lia.
Qed.
Theorem C42_cross x N h C Rn : values x N (2 * h) C Rn ->
  exists y, cross_forward (2 * h) x = Ok y /\ shape y = [N; h; C * C; Rn]%nat /\
  forall n d i j r, (n < N)%nat -> (d < h)%nat -> (i < C)%nat -> (j < C)%nat -> (r < Rn)%nat ->
    exists l, get y [n; d; i * C + j; r]%nat = Fin l /\ exp l = vexp x n (2 * d) i r * vexp x n (2 * d + 1) j r.
Proof.
  intros [Hs G]. unfold cross_forward. replace (size x 1) with (2 * h)%nat by (unfold size; rewrite Hs; reflexivity).
  rewrite Nat.eqb_refl. cbn [negb]. unfold size4. rewrite Hs. cbn [bind].
  assert (Hs' : shape x = [N; (2 * h)%nat; C; Rn]) by exact Hs.
  destruct (cross_index x N h C Rn 0 Hs' ltac:(lia)) as (lt & -> & Sl & Gl). cbn [bind].
  destruct (cross_index x N h C Rn 1 Hs' ltac:(lia)) as (rt & -> & Sr & Gr). cbn [bind].
  destruct lt as [sl gl]. destruct rt as [sr gr]. cbn [shape] in Sl, Sr. cbn [get] in Gl, Gr. subst sl sr.
  unfold unsqueeze. cbn [shape insert_nth]. bcast. cbn [bind].
  replace (2 * h / 2)%nat with h by (rewrite Nat.mul_comm, Nat.div_mul; lia).
  unfold view at 1. cbn [shape].
  replace (numel [N; h; (C * C)%nat; Rn] =? numel [N; h; C; C; Rn])%nat with true
    by (symmetry; apply Nat.eqb_eq; cbn [numel]; ring).
  cbn [bind shape]. rewrite eqb_list_refl. cbn [assert bind]. eexists. split; [reflexivity|]. split; [reflexivity|].
  intros n d i j r Hn Hd Hi Hj Hr. cbn [get].
  replace (ravel [N; h; (C * C)%nat; Rn] [n; d; (i * C + j)%nat; r]) with (ravel [N; h; C; C; Rn] [n; d; i; j; r])
    by (cbn [ravel numel]; ring).
  rewrite unravel_ravel by (simpl; repeat split; auto).
  unfold bproj. cbn [length]. change (5 - 5)%nat with 0%nat. cbn [skipn bidx]. clamps. cbn [remove_nth]. rewrite Gl, Gr by auto. rewrite Nat.add_0_r.
  destruct (G n (2 * d)%nat i r) as (a & Ea); auto; [lia|]. destruct (G n (2 * d + 1)%nat j r) as (b & Eb); auto; [lia|].
  unfold vexp. rewrite Ea, Eb. cbn [nadd toR]. eexists. split; [reflexivity|]. apply exp_plus.
Qed.
Print Assumptions C42_cross.

(** An odd number of features makes the forward pass raise: the padded feature is never added. *)
Theorem C42_cross_odd_refuted x N h C Rn : shape x = [N; 2 * h + 1; C; Rn]%nat ->
  cross_forward (2 * h + 1) x = Err IndexErr.
Proof.
  intros Hs. unfold cross_forward. replace (size x 1) with (2 * h + 1)%nat by (unfold size; rewrite Hs; reflexivity).
  rewrite Nat.eqb_refl. cbn [negb]. unfold size4. rewrite Hs. cbn [bind].
  assert (Hh: ((2 * h + 1 + 1) / 2 = h + 1)%nat) by (symmetry; apply Nat.div_unique with (r := 0%nat); lia).
  assert (N1: forall j k, (k < h + 1)%nat -> nth k (cross_scope (2 * h + 1) j) 0%nat =
     if (2 * k + j <? 2 * h + 1)%nat then (2 * k + j)%nat else (2 * h + 1)%nat).
  { intros j k Hk. unfold cross_scope. rewrite Hh.
    apply (nth_map_seq (fun i => if (2 * i + j <? 2 * h + 1)%nat then (2 * i + j)%nat else (2 * h + 1)%nat)). auto. }
  assert (L1: forall j, length (cross_scope (2 * h + 1) j) = (h + 1)%nat).
  { intros j. unfold cross_scope. rewrite map_length, seq_length. apply Hh. }
  unfold index_dim at 1. cbn [shape]. destruct (forallb _ _); [|reflexivity]. cbn [bind].
  unfold index_dim. cbn [shape]. replace (forallb _ _) with false; [reflexivity|]. symmetry.
  apply not_true_iff_false. intros H. rewrite forallb_forall in H. specialize (H h).
  rewrite L1 in H. specialize (H ltac:(apply in_seq; lia)). cbn [get nth] in H. rewrite N1 in H by lia.
  apply Nat.ltb_lt in H. unfold size in H. rewrite Hs in H. cbn [nth] in H.
  destruct (Nat.ltb_spec (2 * h + 1) (2 * h + 1)); lia.
Qed.
Print Assumptions C42_cross_odd_refuted.
Theorem C42_cross_sample_refuted chan nrep c : cross_sample chan nrep c = Err AttributeErr.
Proof. reflexivity. Qed.
Print Assumptions C42_cross_sample_refuted.

(** RootProductLayer: the product of all features; sampling hands its index to every feature. *)
Theorem C42_root x N F C Rn : values x N F C Rn ->
  exists y, rootprod_forward F x = Ok y /\ shape y = [N; 1; C; Rn]%nat /\
  forall n c r, (n < N)%nat -> (c < C)%nat -> (r < Rn)%nat ->
    exists l, get y [n; 0; c; r]%nat = Fin l /\ exp l = rprod F (fun i => vexp x n i c r).
Proof.
  intros Hv. pose proof Hv as [Hs G]. unfold rootprod_forward, size. rewrite Hs. cbn [nth]. rewrite Nat.eqb_refl. cbn [assert bind].
  eexists. split; [reflexivity|]. unfold tsum_keep, reduce_keep. cbn [shape get]. rewrite Hs. split; [reflexivity|].
  intros n c r Hn Hc Hr. unfold size. rewrite Hs. cbn [nth set_nth].
  rewrite (nsum_fin F _ (fun i => toR (get x [n; i; c; r]))).
  - eexists. split; [reflexivity|]. unfold rsum. rewrite exp_lsum. reflexivity.
  - intros i Hi. destruct (G n i c r) as (v & ->); auto.
Qed.
Print Assumptions C42_root.
Theorem C42_root_sample V F c N S Rn : context_ok c N 1 S Rn ->
  exists o, @rootprod_sample V F c = Ret (set_out c o) /\ shape o = [N; F] /\
  forall n i, (n < N)%nat -> (i < F)%nat -> get o [n; i] = get (c_out c) [n; 0%nat].
Proof.
  intros (_ & _ & So & _). unfold rootprod_sample, repeat_t, dim. rewrite So. cbn [length repeat set_nth Nat.eqb lift mbind].
  eexists. split; [reflexivity|]. cbn [shape get map2]. 
  split; [f_equal; [lia|f_equal; lia]|].
  intros n i Hn Hi. cbn [map2]. rewrite Nat.mod_small, Nat.mod_1_r by auto. reflexivity.
Qed.
Print Assumptions C42_root_sample.

(** The hypotheses are met: five features in groups of two, and six features in pairs. *)
Example C42_ex :
  let x5 := mkT [2; 5; 3; 2]%nat (fun idx => Fin (INR (ravel [2; 5; 3; 2]%nat idx))) in
  let x6 := mkT [2; 6; 3; 2]%nat (fun idx => Fin (INR (ravel [2; 6; 3; 2]%nat idx))) in
  values x5 2 5 3 2 /\ ceil_div 5 2 = 3%nat /\ values x6 2 (2 * 3) 3 2 /\
  context_ok (mkCtx 2 (full [2; 3]%nat 1%nat) (full [2]%nat 0%nat) false 1) 2 (ceil_div 5 2) 3 1 /\
  context_ok (mkCtx 2 (full [2; 1]%nat 1%nat) (full [2]%nat 0%nat) false 1) 2 1 3 1.
Proof.
  cbv zeta. split; [split; [reflexivity|intros; eexists; reflexivity]|]. split; [reflexivity|].
  split; [split; [reflexivity|intros; eexists; reflexivity]|].
  split; repeat split; simpl; intros; lia.
Qed.
