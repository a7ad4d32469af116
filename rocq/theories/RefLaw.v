(** The law of the indices that a stack of layers samples. *)
From Coq Require Import List Arith Lia Bool Reals Lra.
Import ListNotations.
From Verif Require Import Base RSum Num Tensor Prob Layers Circuit RefFwd RefSample.
Local Open Scope R_scope.
Local Arguments Nat.div : simpl never.
Local Arguments Nat.modulo : simpl never.
Local Arguments Nat.sub : simpl never.
Local Arguments Nat.mul : simpl never.
Local Arguments Nat.add : simpl never.

(** * One categorical draw per row *)
Lemma catp_rows K (p : nat -> R) : (forall k, (k < K)%nat -> 0 < p k) -> rsum K p = 1 ->
  forall k, (k < K)%nat -> catp (map (fun k => Fin (ln (p k))) (seq 0 K)) k = p k.
Proof.
  intros Hp Hs k Hk. unfold catp. rewrite nth_map_seq by auto. rewrite lsum_map. cbn [pval].
  replace (lsum (fun x => exp (ln (p x))) (seq 0 K)) with 1.
  - rewrite exp_ln by auto. field.
  - rewrite <- Hs. apply lsum_ext. intros i Hi. apply in_seq0 in Hi. symmetry. apply exp_ln; auto.
Qed.

Lemma cat_row_rows lw N D K w n d : lrows lw N D K w -> (0 < K)%nat -> (n < N)%nat -> (d < D)%nat ->
  rsum K (w n d) = 1 ->
  cat_row lw [n; d] = map (fun k => Fin (ln (w n d k))) (seq 0 K).
Proof.
  intros [Hs Hw] HK Hn Hd Hsum. unfold cat_row. rewrite Hs. cbn [last app].
  rewrite (nlogsumexp_ln K _ (w n d)); auto. rewrite Hsum, ln_1.
  apply map_ext_in. intros k Hk. apply in_seq0 in Hk. destruct (Hw n d k) as [_ ->]; auto.
  unfold nsub. simpl. f_equal. lra.
Qed.

Lemma lprod_idx2 (f : list nat -> R) N D : lprod f (all_idx [N; D]) = rprod N (fun n => rprod D (fun d => f [n; d])).
Proof.
  cbn [all_idx]. rewrite lprod_flat_map. unfold rprod. apply lprod_ext. intros n _. rewrite lprod_map.
  rewrite lprod_flat_map. apply lprod_ext. intros d _. cbn [map lprod]. ring.
Qed.

Lemma outcome_cat_inv {V A} (supp : list nat -> V -> Prop) w (k : nat -> M V A) r : (0 < length w)%nat -> outcome supp (Cat w k) r ->
  exists i, (i < length w)%nat /\ outcome supp (k i) r.
Proof. intros Hw H; inversion H; subst; eauto. lia. Qed.

Section Law.
Context {V : Type}.
Variable EL : list nat -> (V -> R) -> R.
Hypothesis HEL : leaf_expectation EL.

Lemma choose_outcome supp c lw N D K w r : c_mpe c = false -> lrows lw N D K w -> (0 < K)%nat ->
  (forall n d, (n < N)%nat -> (d < D)%nat -> rsum K (w n d) = 1) ->
  outcome supp (@choose V c lw) r ->
  exists t, r = Ok t /\ shape t = [N; D] /\ forall n d, (n < N)%nat -> (d < D)%nat -> (get t [n; d] < K)%nat.
Proof.
  intros Hc Hw HK Hs Ho. unfold choose in Ho. rewrite Hc in Ho. unfold categorical in Ho.
  pose proof Hw as [Sw _]. rewrite Sw in Ho. cbn [removelast] in Ho.
  destruct (existsb _ _) eqn:E.
  - apply existsb_exists in E as (idx & Hin & E). apply in_all_idx in Hin. inbs.
    rewrite (cat_row_rows _ N D K w) in E by auto. apply existsb_exists in E as (z & Hz & Hz2).
    apply in_map_iff in Hz as (k & <- & _). discriminate.
  - apply outcome_draw_tensor in Ho as [(e & idx & -> & Hb & Hd)|(t & -> & St & Gt)].
    + inbs. rewrite (cat_row_rows _ N D K w) in Hd by auto. apply outcome_cat_inv in Hd as (i & _ & Hd); [|rewrite map_length, seq_length; lia].
      apply outcome_ret_inv in Hd. discriminate.
    + exists t. split; auto. split; auto. intros n d Hn Hd. specialize (Gt [n; d]).
      cbn [inb] in Gt. specialize (Gt ltac:(auto)). rewrite (cat_row_rows _ N D K w) in Gt by auto.
      apply outcome_cat_inv in Gt as (i & Hi & Gt); [|rewrite map_length, seq_length; lia]. apply outcome_ret_inv in Gt.
      inversion Gt as [Ei]. rewrite map_length, seq_length in Hi. lia.
Qed.

Lemma choose_expect c lw N D K w (h : nat -> nat -> nat -> R) : c_mpe c = false -> lrows lw N D K w -> (0 < K)%nat ->
  (forall n d, (n < N)%nat -> (d < D)%nat -> rsum K (w n d) = 1) ->
  expect EL (choose c lw) (fun t => rprod N (fun n => rprod D (fun d => h n d (get t [n; d])))) =
  rprod N (fun n => rprod D (fun d => rsum K (fun k => w n d k * h n d k))).
Proof.
  intros Hc Hw HK Hs. unfold choose. rewrite Hc. unfold categorical.
  pose proof Hw as [Sw Gw]. rewrite Sw. cbn [removelast].
  assert (E: existsb (fun idx => existsb isnan (cat_row lw idx)) (all_idx [N; D]) = false).
  { destruct (existsb _ _) eqn:E; auto. exfalso. apply existsb_exists in E as (idx & Hin & E). apply in_all_idx in Hin. inbs.
    rewrite (cat_row_rows _ N D K w) in E by auto. apply existsb_exists in E as (z & Hz & Hz2).
    apply in_map_iff in Hz as (k & <- & _). discriminate. }
  rewrite E.
  set (hh := fun idx k => match idx with [n; d] => h n d k | _ => 1 end).
  transitivity (expect EL (draw_tensor 0%nat [N; D] (fun idx => @Cat V nat (cat_row lw idx) (fun i => Ret i)))
     (fun t => lprod (fun idx => hh idx (get t idx)) (all_idx [N; D]))).
  { apply expect_ext; auto. intros t. rewrite lprod_idx2. reflexivity. }
  rewrite expect_draw_tensor by auto. rewrite lprod_idx2.
  apply rprod_ext. intros n Hn. apply rprod_ext. intros d Hd. cbn [expect hh].
  rewrite (cat_row_rows _ N D K w) by auto. rewrite map_length, seq_length. apply rsum_ext. intros k Hk.
  rewrite catp_rows; auto. intros k' Hk'. apply Gw; auto.
Qed.

(** * The law of a layer *)
Definition tprod (N D : nat) (c : sctx) (h : nat -> vals) : R :=
  rprod N (fun n => rprod D (fun d => h n d (get (c_out c) [n; d]) (get (c_rep c) [n]))).
Definition vmul (h v : vals) : vals := fun d s r => h d s r * v d s r.

(** [layer_law f N Rn us Din Sin Dout Sout T v]: from a good context over the outputs of the circuit
    [us], [f] never fails and yields a good context over its inputs; the expected value of a product
    of test functions [h] is the ratio of the circuit values at [h * v] and at [v]. *)
Definition layer_law (f : sctx -> M V sctx) (N Rn : nat) (us : list ulayer) (Din Sin Dout Sout : nat) (T : R) (v : nat -> vals) : Prop :=
  forall c, cgood c N Dout Sout Rn -> c_mpe c = false -> c_tsum c = T ->
  (forall supp r, outcome supp (f c) r -> exists c', r = Ok c' /\ cgood c' N Din Sin Rn /\
      c_rep c' = c_rep c /\ c_mpe c' = false /\ c_tsum c' = T) /\
  (forall h, expect EL (f c) (fun c' => tprod N Din c' h) =
     tprod N Dout c (fun n d o r => evals us (vmul (h n) (v n)) d o r / evals us (v n) d o r)).

Lemma rprod2_ext N D f g : (forall n d, (n < N)%nat -> (d < D)%nat -> f n d = g n d) ->
  rprod N (fun n => rprod D (fun d => f n d)) = rprod N (fun n => rprod D (fun d => g n d)).
Proof. intros H. apply rprod_ext. intros n Hn. apply rprod_ext. intros d Hd. auto. Qed.

Lemma sampler_law f N Rn U v T : uwf Rn U -> (0 < uK U)%nat -> (forall n, (n < N)%nat -> vpos (uDin U) (uSin U) Rn (v n)) ->
  sampler f N Rn U v T -> layer_law f N Rn [U] (uDin U) (uSin U) (uDout U) (uSout U) T v.
Proof.
  intros Hw HK Hv Hs c Hc Hm HT. destruct (Hs c Hc HT) as (lw & g & Ef & Hlw & Hg). rewrite Ef.
  pose proof Hc as (Hn & So & Go & Sr & Gr).
  assert (HS1: forall n d, (n < N)%nat -> (d < uDout U)%nat ->
     rsum (uK U) (fun k => upost U (v n) d (get (c_out c) [n; d]) (get (c_rep c) [n]) k) = 1).
  { intros n d Hn' Hd. apply (upost_sum Rn); auto. }
  assert (Hch: forall supp r, outcome supp (@choose V c lw) r -> exists t, r = Ok t /\ shape t = [N; uDout U] /\
      forall n d, (n < N)%nat -> (d < uDout U)%nat -> (get t [n; d] < uK U)%nat).
  { intros supp r Ho. eapply choose_outcome; eauto. }
  split.
  - intros supp r Ho. apply outcome_bind in Ho as [(e & Ho & ->)|(t & Ho & Hr)].
    + destruct (Hch _ _ Ho) as (t & E & _). discriminate.
    + destruct (Hch _ _ Ho) as (t' & E & St & Gt). inversion E; subst t'.
      destruct (Hg t St Gt) as (i & Ei & Si & Gi). rewrite Ei in Hr. apply outcome_ret_inv in Hr. subst r.
      exists (set_out c i). split; auto. split; [|unfold set_out; simpl; auto].
      split; [exact Hn|]. split; [exact Si|]. split; [|split; auto].
      intros n d Hn' Hd. unfold set_out; cbn [c_out]. rewrite Gi by auto.
      assert (P: (upar U d < uDout U)%nat) by (apply (uw_par _ _ Hw); auto).
      apply (uw_sel _ _ Hw); auto. apply (uw_kids _ _ Hw); auto.
  - intros h. rewrite expect_bind by auto.
    transitivity (expect EL (choose c lw) (fun t => rprod N (fun n => rprod (uDout U) (fun d =>
        lprod (fun d' => h n d' (usel U d (get (c_out c) [n; d]) (get t [n; d]) d') (get (c_rep c) [n])) (ukids U d))))).
    + apply expect_ext_outcome; auto. intros t Ho. destruct (Hch _ _ Ho) as (t' & E & St & Gt). inversion E; subst t'.
      destruct (Hg t St Gt) as (i & Ei & Si & Gi). rewrite Ei. cbn [expect]. unfold tprod, set_out. cbn [c_out c_rep].
      apply rprod_ext. intros n Hn'.
      rewrite <- (uprod_kids Rn U) by auto. apply rprod_ext. intros d Hd. apply lprod_ext. intros d' Hd'.
      apply (uw_kids _ _ Hw) in Hd' as [L E']; auto. rewrite Gi by auto. rewrite E'. reflexivity.
    + rewrite (choose_expect c lw N (uDout U) (uK U) _ (fun n d k =>
        lprod (fun d' => h n d' (usel U d (get (c_out c) [n; d]) k d') (get (c_rep c) [n])) (ukids U d)) Hm Hlw HK HS1).
      unfold tprod. apply rprod2_ext. intros n d Hn' Hd. cbn [evals fold_left].
      change (evals [U] (vmul (h n) (v n))) with (ueval U (vmul (h n) (v n))). change (evals [U] (v n)) with (ueval U (v n)).
      rewrite <- (upost_step Rn U (v n) (vmul (h n) (v n))); auto. apply rsum_ext. intros k Hk. f_equal.
      apply lprod_ext. intros d' Hd'. unfold vmul.
      assert (0 < v n d' (usel U d (get (c_out c) [n; d]) k d') (get (c_rep c) [n])).
      { apply Hv; auto; [apply (uw_kids _ _ Hw) in Hd'; tauto|apply (uw_sel _ _ Hw); auto]. }
      field. lra.
Qed.

(** Layers above each other: [us1] above [us2], [v] below. *)
Lemma layer_law_comp f1 f2 N Rn us1 us2 D0 S0 D1 S1 D2 S2 T v :
  uchain Rn us2 D0 S0 D1 S1 -> uchain Rn us1 D1 S1 D2 S2 ->
  (forall n, (n < N)%nat -> vpos D0 S0 Rn (v n)) ->
  layer_law f1 N Rn us1 D1 S1 D2 S2 T (fun n => evals us2 (v n)) ->
  layer_law f2 N Rn us2 D0 S0 D1 S1 T v ->
  layer_law (fun c => mbind (f1 c) f2) N Rn (us2 ++ us1) D0 S0 D2 S2 T v.
Proof.
  intros C2 C1 Hv L1 L2 c Hc Hm HT. destruct (L1 c Hc Hm HT) as [O1 E1]. split.
  - intros supp r Ho. apply outcome_bind in Ho as [(e & Ho & ->)|(c1 & Ho & Hr)].
    + destruct (O1 _ _ Ho) as (c' & E & _). discriminate.
    + destruct (O1 _ _ Ho) as (c' & E & G1 & R1 & M1 & T1). inversion E; subst c'.
      destruct (L2 c1 G1 M1 T1) as [O2 _]. destruct (O2 _ _ Hr) as (c2 & -> & G2 & R2 & M2 & T2).
      exists c2. split; auto. split; auto. split; [congruence|]. auto.
  - intros h. rewrite expect_bind by auto.
    transitivity (expect EL (f1 c) (fun c1 => tprod N D1 c1 (fun n d o r => evals us2 (vmul (h n) (v n)) d o r / evals us2 (v n) d o r))).
    + apply expect_ext_outcome; auto. intros c1 Ho. destruct (O1 _ _ Ho) as (c' & E & G1 & R1 & M1 & T1). inversion E; subst c'.
      destruct (L2 c1 G1 M1 T1) as [_ E2]. apply E2.
    + rewrite E1. unfold tprod. apply rprod2_ext. intros n d Hn Hd. destruct Hc as (Hn' & So & Go & Sr & Gr).
      rewrite !evals_app. f_equal. eapply (evals_ext Rn us1); eauto.
      intros d' s r Hd' Hs Hr. unfold vmul at 1.
      assert (0 < evals us2 (v n) d' s r) by (eapply (evals_pos Rn us2); eauto). field. lra.
Qed.

Lemma layer_law_ext f g N Rn us D0 S0 D1 S1 T v :
  (forall c, cgood c N D1 S1 Rn -> f c = g c) -> layer_law f N Rn us D0 S0 D1 S1 T v -> layer_law g N Rn us D0 S0 D1 S1 T v.
Proof. intros E L c Hc Hm HT. rewrite <- E by auto. apply L; auto. Qed.

Lemma layer_law_nil N Rn D S T v : (forall n, (n < N)%nat -> vpos D S Rn (v n)) ->
  layer_law (fun c => Ret c) N Rn [] D S D S T v.
Proof.
  intros Hv c Hc Hm HT. split.
  - intros supp r Ho. apply outcome_ret_inv in Ho. exists c. auto.
  - intros h. cbn [expect evals fold_left]. unfold tprod. apply rprod2_ext. intros n d Hn Hd.
    destruct Hc as (Hn' & So & Go & Sr & Gr). unfold vmul, evals. simpl.
    assert (0 < v n d (get (c_out c) [n; d]) (get (c_rep c) [n])) by (apply Hv; auto). field. lra.
Qed.

(** Deterministic routing through a product layer. *)
Lemma route_law f N Rn U v T : uwf Rn U -> uK U = 1%nat -> (forall n, (n < N)%nat -> vpos (uDin U) (uSin U) Rn (v n)) ->
  (forall c, cgood c N (uDout U) (uSout U) Rn -> exists c', f c = Ret c' /\ cgood c' N (uDin U) (uSin U) Rn /\
     c_rep c' = c_rep c /\ c_mpe c' = c_mpe c /\ c_tsum c' = c_tsum c /\
     forall n d', (n < N)%nat -> (d' < uDin U)%nat -> get (c_out c') [n; d'] = usel U (upar U d') (get (c_out c) [n; upar U d']) 0%nat d') ->
  layer_law f N Rn [U] (uDin U) (uSin U) (uDout U) (uSout U) T v.
Proof.
  intros Hw HK Hv Hf c Hc Hm HT. destruct (Hf c Hc) as (c' & Ef & Gc & R1 & M1 & T1 & G1). rewrite Ef. split.
  - intros supp r Ho. apply outcome_ret_inv in Ho. exists c'. split; auto. split; auto. split; auto. split; congruence.
  - intros h. cbn [expect]. unfold tprod. apply rprod_ext. intros n Hn.
    pose proof Hc as (Hn' & So & Go & Sr & Gr). rewrite R1.
    rewrite <- (uprod_kids Rn U) by auto. apply rprod_ext. intros d Hd.
    change (evals [U] (vmul (h n) (v n))) with (ueval U (vmul (h n) (v n))). change (evals [U] (v n)) with (ueval U (v n)).
    assert (Ho: (get (c_out c) [n; d] < uSout U)%nat) by auto. assert (Hr: (get (c_rep c) [n] < Rn)%nat) by auto.
    rewrite <- (upost_step Rn U (v n) (vmul (h n) (v n))); auto.
    pose proof (upost_sum Rn U (v n) d _ _ Hw (Hv n Hn) Hd Ho Hr) as P1. rewrite HK in *. rewrite rsum_S, rsum_0 in P1 |- *.
    assert (P: upost U (v n) d (get (c_out c) [n; d]) (get (c_rep c) [n]) 0%nat = 1) by lra. rewrite P.
    rewrite Rplus_0_l, Rmult_1_l. apply lprod_ext. intros d' Hd'.
    assert (0 < v n d' (usel U d (get (c_out c) [n; d]) 0%nat d') (get (c_rep c) [n])).
    { apply Hv; auto; [apply (uw_kids _ _ Hw) in Hd'; tauto|apply (uw_sel _ _ Hw); auto; lia]. }
    apply (uw_kids _ _ Hw) in Hd' as [L E']; auto. rewrite G1 by auto. rewrite E'. unfold vmul. field. lra.
Qed.

(** * Mixing over repetitions *)
Lemma mixing_law L N ca v T c : mixing_ok L -> T <> 0 -> mixing_cached L N ca v ->
  (forall n y r, (n < N)%nat -> (y < sout L)%nat -> (r < sin L)%nat -> 0 < v n y r) ->
  cgood c N 1 (sout L) (sin L) -> c_tsum c = T -> c_mpe c = false ->
  (forall supp r, outcome supp (@mixing_sample V L ca c) r -> exists c', r = Ok c' /\ cgood c' N 1 (sin L) (sin L) /\
      c_rep c' = c_rep c /\ c_mpe c' = false /\ c_tsum c' = T) /\
  (forall h : nat -> nat -> R, expect EL (mixing_sample L ca c) (fun c' => rprod N (fun n => h n (get (c_out c') [n; 0%nat]))) =
     rprod N (fun n => rsum (sin L) (fun r => mixpost L T (v n) (get (c_out c) [n; 0%nat]) r * h n r))).
Proof.
  intros Hok HT Hca Hv Hc Ec Hm. destruct (@mixing_sampler V L N (sin L) ca v T c Hok HT Hca Hc Ec) as (lw & Ef & Hlw).
  rewrite Ef. pose proof Hc as (Hn & So & Go & Sr & Gr). pose proof Hok as (HS & _ & _).
  assert (HS1: forall n d, (n < N)%nat -> (d < 1)%nat ->
     rsum (sin L) (fun r => mixpost L T (v n) (get (c_out c) [n; d]) r) = 1).
  { intros n d Hn' Hd. unfold mixpost, Rdiv. rewrite rsum_scal_r. apply Rinv_r. apply Rgt_not_eq. apply rsum_pos; auto.
    intros r Hr. apply Rmult_lt_0_compat; [apply wsoft_pos; auto|apply Hv; auto]. }
  split.
  - intros supp r Ho. apply outcome_bind in Ho as [(e & Ho & ->)|(t & Ho & Hr)].
    + destruct (choose_outcome _ _ _ _ _ _ _ _ Hm Hlw HS HS1 Ho) as (t & E & _). discriminate.
    + destruct (choose_outcome _ _ _ _ _ _ _ _ Hm Hlw HS HS1 Ho) as (t' & E & St & Gt). inversion E; subst t'.
      apply outcome_ret_inv in Hr. exists (set_out c t). split; auto. split; [|unfold set_out; simpl; auto].
      split; [exact Hn|]. split; [exact St|]. split; auto.
  - intros h. rewrite expect_bind by auto. cbn [expect]. unfold set_out. cbn [c_out].
    rewrite (expect_ext EL HEL _ _ (fun t => rprod N (fun n => rprod 1 (fun d => h n (get t [n; d]))))).
    2:{ intros t. apply rprod_ext. intros n _. rewrite rprod_S, rprod_0. ring. }
    rewrite (choose_expect c lw N 1 (sin L) _ (fun n d k => h n k) Hm Hlw HS HS1).
    apply rprod_ext. intros n Hn'. rewrite rprod_S, rprod_0. ring.
Qed.
End Law.
