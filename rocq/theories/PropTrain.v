(** C61-C63: the losses of the training programs, accuracy, and bits per dimension. *)
From Coq Require Import List Arith Lia Bool ZArith Reals Lra.
Import ListNotations.
From Verif Require Import Base RSum Num Tensor Prob Layers Circuit Net RefFwd Leaf RefLeaf TypeChecks Einet RefNet RefEinet RefEinetS Build RefBuild Spec RefSpec RefSpecS RefPost RefDensity Density Cluster RefCluster Data PropForward PropCluster Train RefTrain Ex.
Local Open Scope R_scope.
Local Arguments Nat.div : simpl never.
Local Arguments Nat.modulo : simpl never.
Local Arguments Nat.sub : simpl never.
Local Arguments Nat.mul : simpl never.
Local Arguments Nat.add : simpl never.

(** * Vocabulary *)
(** The density of row [n]: every class has the same prior. *)
Definition marg {V} (E : einet V) (x : tensor (option V)) (n : nat) : R := rsum (e_K E) (fun k => lik E x None n k) / INR (e_K E).
(** The posterior of class [k] at row [n]. *)
Definition post {V} (E : einet V) (x : tensor (option V)) (n k : nat) : R := lik E x None n k / rsum (e_K E) (fun j => lik E x None n j).
Definition mean (N : nat) (f : nat -> R) : R := rsum N f / INR N.
(** A label for every row, all of them classes. *)
Definition labelled (K N : nat) (labels : tensor nat) : Prop := shape labels = [N] /\ forall n, (n < N)%nat -> (get labels [n] < K)%nat.
(** [k] is the first of the most likely classes of row [n]. *)
Definition predicts {V} (E : einet V) (x : tensor (option V)) (n k : nat) : Prop := closest (e_K E) (fun j => - lik E x None n j) k.
(** A loss that is a number. *)
Definition loss_is (r : res num) (v : R) : Prop := r = Ok (Fin v).

Lemma marg_pos V g o (E : einet V) N x n : accepted g o E -> batch E N x -> (n < N)%nat -> 0 < marg E x n.
Proof.
  intros A HB Hn. destruct (forward_ln g o E A N x HB) as (y & _ & _ & G). pose proof (classes_pos g o E A) as HK.
  apply Rdiv_lt_0_compat; [apply rsum_pos; auto; intros k Hk; apply (G n k Hn Hk)|apply lt_0_INR; auto].
Qed.

(** * C61: likelihoods and generative losses *)
(** log_likelihoods(einet(x)): the log-density of every row, with the same prior for every class. *)
Theorem C61_log_likelihoods : forall V g o (E : einet V) N x, accepted g o E -> batch E N x ->
  exists y lls, forward E x None = Ok y /\ log_likelihoods y None = Ok lls /\
    shape lls = (if (e_K E =? 1)%nat then [N; 1] else [N])%nat /\
    forall n, (n < N)%nat -> get lls (if (e_K E =? 1)%nat then [n; 0] else [n])%nat = Fin (ln (marg E x n)).
Proof.
  intros V g o E N x A HB. destruct (forward_ln g o E A N x HB) as (y & Ey & Sy & G). pose proof (classes_pos g o E A) as HK. exists y.
  unfold log_likelihoods, size. rewrite Sy. cbn [length nth]. change (2 - 1)%nat with 1%nat. cbn [nth].
  destruct (Nat.eqb_spec (e_K E) 1) as [K1|K1].
  - exists y. split; [auto|]. split; [auto|]. split; [rewrite Sy, K1; reflexivity|]. intros n Hn. destruct (G n 0%nat Hn ltac:(lia)) as [_ ->].
    unfold marg. rewrite K1. rewrite rsum_S, rsum_0. cbn [INR]. do 2 f_equal. field.
  - eexists. split; [exact Ey|]. split; [reflexivity|]. split; [unfold tlogsumexp, reduce; cbn [shape tmap]; rewrite Sy; reflexivity|].
    intros n Hn. unfold tlogsumexp, reduce, size. cbn [get shape tmap insert_nth]. rewrite Sy. cbn [nth].
    pose proof (lt_0_INR _ HK) as KP.
    rewrite (nlogsumexp_ln (e_K E) _ (fun k => lik E x None n k / INR (e_K E))); auto.
    + unfold marg, Rdiv. rewrite rsum_scal_r. reflexivity.
    + intros k Hk. destruct (G n k Hn Hk) as [P ->]. split; [apply Rdiv_lt_0_compat; auto|].
      unfold nlog. destruct (Rlt_dec 0 (INR (e_K E))); [|lra]. cbn [nsub nneg nadd]. f_equal. unfold Rdiv. rewrite ln_mult, ln_Rinv by (auto using Rinv_0_lt_compat). reflexivity.
Qed.
Print Assumptions C61_log_likelihoods.
(** With targets: the log-likelihood of the row's own class; a target that is not a class raises. *)
Theorem C61_targets : forall V g o (E : einet V) N x t, accepted g o E -> batch E N x -> shape t = [N] ->
  exists y, forward E x None = Ok y /\
   ((forall n, (n < N)%nat -> (get t [n] < e_K E)%nat) ->
     exists lls, log_likelihoods y (Some t) = Ok lls /\ shape lls = [N; 1]%nat /\
     forall n, (n < N)%nat -> get lls [n; 0]%nat = Fin (ln (lik E x None n (get t [n])))) /\
   ((exists n, (n < N)%nat /\ (e_K E <= get t [n])%nat) -> log_likelihoods y (Some t) = Err RuntimeErr).
Proof.
  intros V g o E N x t A HB Ht. destruct (forward_ln g o E A N x HB) as (y & Ey & Sy & G). exists y. split; [auto|].
  unfold log_likelihoods, gather, size. rewrite Sy, Ht. cbn [length nth]. change (2 - 1)%nat with 1%nat. cbn [nth].
  assert (SU: shape (unsqueeze 1 t) = [N; 1]%nat) by (unfold unsqueeze; cbn [shape]; rewrite Ht; reflexivity). rewrite SU.
  assert (FT: gather_fits 1 [N; e_K E] [N; 1%nat] = true) by (unfold gather_fits; cbn; rewrite Nat.leb_refl; reflexivity).
  rewrite FT. split.
  - intros HR. destruct (forallb _ _) eqn:FB.
    + cbn [andb]. eexists. split; [reflexivity|]. split; [reflexivity|]. intros n Hn. cbn [get unsqueeze remove_nth set_nth].
      apply (G n (get t [n]) Hn). auto.
    + exfalso. apply Bool.not_true_iff_false in FB. apply FB. apply forallb_forall. intros idx Hi. cbn [all_idx seq flat_map map] in Hi.
      apply in_flat_map in Hi as (n & Hn & Hi). apply in_seq in Hn. cbn in Hi. destruct Hi as [<-|[]]. cbn [get unsqueeze remove_nth]. apply Nat.ltb_lt. apply HR. lia.
  - intros (n & Hn & Hk). destruct (forallb _ _) eqn:FB; [|reflexivity]. exfalso.
    rewrite forallb_forall in FB. specialize (FB [n; 0]%nat). assert (IN: In [n; 0]%nat (all_idx [N; 1%nat])).
    { cbn [all_idx seq flat_map map]. apply in_flat_map. exists n. split; [apply in_seq; lia|]. cbn. auto. }
    specialize (FB IN). cbn [get unsqueeze remove_nth] in FB. apply Nat.ltb_lt in FB. lia.
Qed.
Print Assumptions C61_targets.
(** main.py, generative: the mean negative log-density of the batch. *)
Theorem C61_generative : forall V g o (E : einet V) N x t, accepted g o E -> batch E N x -> (0 < N)%nat ->
  loss_is (train_loss E false x t) (- mean N (fun n => ln (marg E x n))).
Proof.
  intros V g o E N x t A HB HN. destruct (C61_log_likelihoods V g o E N x A HB) as (y & lls & Ey & El & Sl & G). unfold loss_is, train_loss.
  rewrite Ey. cbn [bind]. rewrite El. cbn [bind]. unfold tmean. destruct (Nat.eqb_spec (e_K E) 1) as [K1|K1].
  - destruct (total2 lls N 1 (fun n _ => ln (marg E x n)) Sl) as [-> ->]. { intros n k Hn Hk. replace k with 0%nat by lia. auto. }
    rewrite Nat.mul_1_r, ndiv_fin by auto. cbn [nmul]. do 2 f_equal. unfold mean. rewrite (rsum_ext N _ (fun n => ln (marg E x n))). { field. apply not_0_INR. lia. }
    intros n _. rewrite rsum_S, rsum_0. ring.
  - destruct (total1 lls N (fun n => ln (marg E x n)) Sl G) as [-> ->]. rewrite ndiv_fin by auto. cbn [nmul]. do 2 f_equal. unfold mean. field. apply not_0_INR. lia.
Qed.
Print Assumptions C61_generative.
(** models_pl.py: the mean over rows and classes, or the sum; another reduction raises. *)
Theorem C61_lightning : forall V g o (E : einet V) N x, accepted g o E -> batch E N x ->
  ((0 < N)%nat -> loss_is (negative_log_likelihood E x RMean) (- mean N (fun n => mean (e_K E) (fun k => ln (lik E x None n k))))) /\
  loss_is (negative_log_likelihood E x RSum) (- rsum N (fun n => rsum (e_K E) (fun k => ln (lik E x None n k)))) /\
  negative_log_likelihood E x ROther = Err ValueErr.
Proof.
  intros V g o E N x A HB. destruct (forward_ln g o E A N x HB) as (y & Ey & Sy & G). pose proof (classes_pos g o E A) as HK.
  unfold loss_is, negative_log_likelihood. rewrite Ey. cbn [bind].
  destruct (total2 (tmap (nmul (Fin (-1))) y) N (e_K E) (fun n k => -1 * ln (lik E x None n k))) as [T U].
  { exact Sy. } { intros n k Hn Hk. cbn [tmap get]. destruct (G n k Hn Hk) as [_ ->]. reflexivity. }
  assert (S: rsum N (fun n => rsum (e_K E) (fun k => -1 * ln (lik E x None n k))) = - rsum N (fun n => rsum (e_K E) (fun k => ln (lik E x None n k)))).
  { rewrite (rsum_ext N _ (fun n => -1 * rsum (e_K E) (fun k => ln (lik E x None n k)))) by (intros; apply rsum_scal_l). rewrite rsum_scal_l. ring. }
  split; [|split; [|reflexivity]].
  - intros HN. unfold tmean. rewrite T, U, ndiv_fin by nia. do 2 f_equal. rewrite S. unfold mean.
    rewrite (rsum_ext N (fun n => rsum (e_K E) _ / INR (e_K E)) (fun n => rsum (e_K E) (fun k => ln (lik E x None n k)) * / INR (e_K E))) by reflexivity.
    rewrite rsum_scal_r, mult_INR. field. split; apply not_0_INR; lia.
  - rewrite T. do 2 f_equal. exact S.
Qed.
Print Assumptions C61_lightning.
(** The two generative losses: equal with one class; the Lightning loss is an upper bound otherwise, and tight exactly if
    no row distinguishes the classes. *)
Theorem C61_losses : forall V g o (E : einet V) N x t, accepted g o E -> batch E N x -> (0 < N)%nat ->
  exists a b, loss_is (train_loss E false x t) a /\ loss_is (negative_log_likelihood E x RMean) b /\ a <= b /\
    (e_K E = 1%nat -> a = b) /\ (a = b <-> forall n k, (n < N)%nat -> (k < e_K E)%nat -> lik E x None n k = marg E x n).
Proof.
  intros V g o E N x t A HB HN. pose proof (classes_pos g o E A) as HK. pose proof (lt_0_INR N HN) as NP. pose proof (lt_0_INR _ HK) as KP.
  destruct (forward_ln g o E A N x HB) as (y & _ & _ & G).
  eexists. eexists. split; [apply (C61_generative V g o E N x t A HB HN)|]. split; [apply (proj1 (C61_lightning V g o E N x A HB)); auto|].
  assert (J: forall n, (n < N)%nat -> mean (e_K E) (fun k => ln (lik E x None n k)) <= ln (marg E x n)).
  { intros n Hn. apply (jensen (e_K E) (fun k => lik E x None n k)); auto. intros k Hk. apply (G n k Hn Hk). }
  assert (EQ: - mean N (fun n => ln (marg E x n)) = - mean N (fun n => mean (e_K E) (fun k => ln (lik E x None n k))) <->
    forall n k, (n < N)%nat -> (k < e_K E)%nat -> lik E x None n k = marg E x n).
  { split.
    - intros Z n k Hn Hk. apply (proj1 (proj2 (jensen (e_K E) (fun k => lik E x None n k) HK (fun k Hk => proj1 (G n k Hn Hk))))); auto.
      change (mean (e_K E) (fun k => ln (lik E x None n k)) = ln (marg E x n)).
      destruct (Req_EM_T (mean (e_K E) (fun k => ln (lik E x None n k))) (ln (marg E x n))) as [|D]; auto. exfalso.
      assert (IN: In n (seq 0 N)) by (apply in_seq; lia).
      pose proof (lsum_lt (fun n => mean (e_K E) (fun k => ln (lik E x None n k))) (fun n => ln (marg E x n)) (seq 0 N) n IN) as L.
      assert (J': forall b, In b (seq 0 N) -> mean (e_K E) (fun k => ln (lik E x None b k)) <= ln (marg E x b)) by (intros b Hb; apply in_seq in Hb; apply J; lia).
      specialize (L J'). cbn beta in L. specialize (J n Hn). specialize (L ltac:(lra)).
      apply Ropp_eq_compat in Z. rewrite !Ropp_involutive in Z. unfold mean at 1 2 in Z. apply (Rmult_eq_compat_r (INR N)) in Z.
      unfold Rdiv in Z. rewrite !Rmult_assoc, Rinv_l, !Rmult_1_r in Z by lra. unfold rsum at 1 2 in Z. lra.
    - intros Z. f_equal. unfold mean at 1 2. f_equal. apply rsum_ext. intros n Hn. symmetry.
      apply (proj2 (proj2 (jensen (e_K E) (fun k => lik E x None n k) HK (fun k Hk => proj1 (G n k Hn Hk))))). intros k Hk. apply Z; auto. }
  split; [|split; [|exact EQ]].
  - apply Ropp_le_contravar. unfold mean at 1 3. apply Rmult_le_compat_r; [left; apply Rinv_0_lt_compat; auto|]. apply rsum_le. exact J.
  - intros K1. apply EQ. intros n k Hn Hk. unfold marg. rewrite K1. rewrite rsum_S, rsum_0. replace k with 0%nat by lia. cbn [INR]. field.
Qed.
Print Assumptions C61_losses.
(** Training targets: whatever distribution [q] the data come from, the expected loss of a row is at least the entropy
    of [q], and equals it exactly if the network's density is [q]. *)
Theorem C61_proper : forall g o (E : einet nat) B t, accepted g o E -> discrete_leaf B (leafE E) ->
  forall q : list nat -> R, (forall w, In w (vectors B (e_C E * e_F E)) -> 0 <= q w) -> lsum q (vectors B (e_C E * e_F E)) = 1 ->
  exists loss, (forall w, In w (vectors B (e_C E * e_F E)) -> loss_is (train_loss E false (point (e_C E) (e_F E) w) t) (loss w)) /\
    lsum (fun w => q w * - ln (q w)) (vectors B (e_C E * e_F E)) <= lsum (fun w => q w * loss w) (vectors B (e_C E * e_F E)) /\
    (lsum (fun w => q w * - ln (q w)) (vectors B (e_C E * e_F E)) = lsum (fun w => q w * loss w) (vectors B (e_C E * e_F E)) <->
     forall w, In w (vectors B (e_C E * e_F E)) -> q w = marg E (point (e_C E) (e_F E) w) 0).
Proof.
  intros g o E B t A HB q Hq Sq. set (pt := fun w => point (e_C E) (e_F E) w). exists (fun w => - ln (marg E (pt w) 0)).
  pose proof (accepted_ok g o E A) as HE. pose proof (classes_pos g o E A) as HK.
  assert (PB: forall w, In w (vectors B (e_C E * e_F E)) -> batch E 1 (pt w)) by (intros w Hw; apply (point_batch E B); auto).
  split.
  - intros w Hw. pose proof (C61_generative nat g o E 1 (pt w) t A (PB w Hw) ltac:(lia)) as L. unfold loss_is in *. rewrite L.
    unfold mean. rewrite rsum_S, rsum_0. cbn [INR]. do 2 f_equal. field.
  - apply (gibbs q (fun w => marg E (pt w) 0)); auto.
    + intros w Hw. split; auto. apply (marg_pos nat g o E 1); auto.
    + unfold marg, Rdiv. rewrite lsum_scal_r. unfold rsum. rewrite lsum_swap.
      rewrite (lsum_ext _ (fun _ => 1)). { rewrite lsum_const, seq_length. field. apply not_0_INR. lia. }
      intros k Hk. apply in_seq in Hk. apply (lik_normalized E HE B HB). lia.
Qed.
Print Assumptions C61_proper.
(** The Lightning loss is smallest exactly if every class has the distribution of the data. *)
Theorem C61_proper_lightning : forall g o (E : einet nat) B, accepted g o E -> discrete_leaf B (leafE E) ->
  forall q : list nat -> R, (forall w, In w (vectors B (e_C E * e_F E)) -> 0 <= q w) -> lsum q (vectors B (e_C E * e_F E)) = 1 ->
  exists loss, (forall w, In w (vectors B (e_C E * e_F E)) -> loss_is (negative_log_likelihood E (point (e_C E) (e_F E) w) RMean) (loss w)) /\
    lsum (fun w => q w * - ln (q w)) (vectors B (e_C E * e_F E)) <= lsum (fun w => q w * loss w) (vectors B (e_C E * e_F E)) /\
    (lsum (fun w => q w * - ln (q w)) (vectors B (e_C E * e_F E)) = lsum (fun w => q w * loss w) (vectors B (e_C E * e_F E)) <->
     forall w k, In w (vectors B (e_C E * e_F E)) -> (k < e_K E)%nat -> q w = lik E (point (e_C E) (e_F E) w) None 0 k).
Proof.
  intros g o E B A HB q Hq Sq. set (pt := fun w => point (e_C E) (e_F E) w). set (vs := vectors B (e_C E * e_F E)) in *.
  exists (fun w => - mean (e_K E) (fun k => ln (lik E (pt w) None 0 k))).
  pose proof (accepted_ok g o E A) as HE. pose proof (classes_pos g o E A) as HK. pose proof (lt_0_INR _ HK) as KP.
  assert (PB: forall w, In w vs -> batch E 1 (pt w)) by (intros w Hw; apply (point_batch E B); auto).
  split.
  - intros w Hw. pose proof (proj1 (C61_lightning nat g o E 1 (pt w) A (PB w Hw)) ltac:(lia)) as L. unfold loss_is in *. rewrite L.
    unfold mean at 1. rewrite rsum_S, rsum_0. cbn [INR]. do 2 f_equal. field.
  - set (H := lsum (fun w => q w * - ln (q w)) vs). set (ce := fun k => lsum (fun w => q w * - ln (lik E (pt w) None 0 k)) vs).
    assert (S: lsum (fun w => q w * - mean (e_K E) (fun k => ln (lik E (pt w) None 0 k))) vs = mean (e_K E) ce).
    { unfold mean, ce, rsum. rewrite (lsum_swap (fun k w => q w * - ln (lik E (pt w) None 0 k))). unfold Rdiv. rewrite <- lsum_scal_r. apply lsum_ext. intros w _.
      rewrite (lsum_scal_l (q w)). rewrite (lsum_ext (fun k => - ln (lik E (pt w) None 0 k)) (fun k => -1 * ln (lik E (pt w) None 0 k))) by (intros; ring).
      rewrite lsum_scal_l. ring. }
    rewrite S.
    assert (GB: forall k, (k < e_K E)%nat -> H <= ce k /\ (H = ce k <-> forall w, In w vs -> q w = lik E (pt w) None 0 k)).
    { intros k Hk. apply (gibbs q (fun w => lik E (pt w) None 0 k) vs); auto; [|apply (lik_normalized E HE B HB); auto].
      intros w Hw. split; auto. destruct (forward_ln g o E A 1 (pt w) (PB w Hw)) as (y & _ & _ & G). apply (G 0%nat k); auto. }
    assert (SH: rsum (e_K E) (fun _ => H) = INR (e_K E) * H) by apply rsum_const.
    assert (MH: forall a, INR (e_K E) * H <= a -> H <= a / INR (e_K E)).
    { intros a Ha. apply (Rmult_le_reg_r (INR (e_K E))); auto. unfold Rdiv. rewrite Rmult_assoc, Rinv_l, Rmult_1_r by lra. lra. }
    split; [apply MH; rewrite <- SH; apply rsum_le; intros k Hk; apply GB; auto|]. split.
    + intros EQ w k Hw Hk. apply (proj2 (GB k Hk)); auto. destruct (Req_EM_T H (ce k)) as [|D]; auto. exfalso.
      assert (IN: In k (seq 0 (e_K E))) by (apply in_seq; lia).
      assert (LE: forall b, In b (seq 0 (e_K E)) -> H <= ce b) by (intros b Hb; apply in_seq in Hb; apply GB; lia).
      pose proof (LE k IN) as LK. pose proof (lsum_lt (fun _ => H) ce (seq 0 (e_K E)) k IN LE ltac:(lra)) as LT. fold (rsum (e_K E) (fun _ => H)) in LT. rewrite SH in LT.
      unfold mean in EQ. apply (Rmult_eq_compat_r (INR (e_K E))) in EQ. unfold Rdiv in EQ. rewrite Rmult_assoc, Rinv_l, Rmult_1_r in EQ by lra. unfold rsum in EQ. lra.
    + intros EQ. unfold mean. rewrite (rsum_ext (e_K E) ce (fun _ => H)); [rewrite SH; field; lra|]. intros k Hk. symmetry. apply (proj2 (GB k Hk)). auto.
Qed.
Print Assumptions C61_proper_lightning.

(** * C62: discriminative loss and accuracy *)
Section Disc.
Context {V : Type}.
Variables (g : config) (o : oracle V) (E : einet V).
Hypothesis A : accepted g o E.
Lemma post_pos N x n k : batch E N x -> (n < N)%nat -> (k < e_K E)%nat -> 0 < post E x n k <= 1 /\ ((1 < e_K E)%nat -> post E x n k < 1).
Proof.
  intros HB Hn Hk. destruct (forward_ln g o E A N x HB) as (yy & _ & _ & G). pose proof (classes_pos g o E A) as HK.
  assert (P: forall j, (j < e_K E)%nat -> 0 < lik E x None n j) by (intros j Hj; apply (G n j Hn Hj)).
  pose proof (rsum_pos (e_K E) (fun j => lik E x None n j) HK P) as SP. split; [split|].
  - apply Rdiv_lt_0_compat; auto.
  - apply (Rmult_le_reg_r (rsum (e_K E) (fun j => lik E x None n j))); auto. unfold post, Rdiv. rewrite Rmult_assoc, Rinv_l, Rmult_1_l, Rmult_1_r by lra.
    apply (lsum_term_le (fun j => lik E x None n j) (seq 0 (e_K E)) k); [apply in_seq; lia|]. intros b Hb. apply in_seq in Hb. left. apply P. lia.
  - intros K1. apply (Rmult_lt_reg_r (rsum (e_K E) (fun j => lik E x None n j))); auto. unfold post, Rdiv. rewrite Rmult_assoc, Rinv_l, Rmult_1_l, Rmult_1_r by lra.
    rewrite <- (rsum_indicator (e_K E) k (fun j => lik E x None n j) Hk). unfold rsum. 
    apply (lsum_lt _ _ (seq 0 (e_K E)) (if (k =? 0)%nat then 1 else 0)%nat).
    + apply in_seq. destruct (k =? 0)%nat; lia.
    + intros j Hj. apply in_seq in Hj. specialize (P j ltac:(lia)). destruct (j =? k)%nat; lra.
    + specialize (P (if (k =? 0)%nat then 1 else 0)%nat). destruct (Nat.eqb_spec k 0) as [->|NZ].
      * specialize (P K1). cbn [Nat.eqb]. lra.
      * specialize (P HK). destruct (Nat.eqb_spec 0 k); [lia|]. lra.
Qed.
Lemma post_sum N x n : batch E N x -> (n < N)%nat -> rsum (e_K E) (fun k => post E x n k) = 1.
Proof.
  intros HB Hn. destruct (forward_ln g o E A N x HB) as (yy & _ & _ & G). pose proof (classes_pos g o E A) as HK.
  pose proof (rsum_pos (e_K E) (fun j => lik E x None n j) HK (fun j Hj => proj1 (G n j Hn Hj))) as SP.
  unfold post, Rdiv. rewrite rsum_scal_r. apply Rinv_r. lra.
Qed.
Lemma posterior_ln N x : batch E N x -> (1 < e_K E)%nat -> exists y, posterior E x = Ok y /\ shape y = [N; e_K E] /\
  forall n k, (n < N)%nat -> (k < e_K E)%nat -> get y [n; k] = Fin (ln (post E x n k)).
Proof.
  intros HB HK. destruct (forward_ln g o E A N x HB) as (ll & Ell & Sll & G).
  destruct (posterior_of_ok ll N (e_K E) (fun n k => ln (lik E x None n k)) ltac:(lia) Sll) as (y & Ey & Sy & Gy); [intros; apply G; auto|].
  exists y. unfold posterior. destruct (Nat.ltb_spec 1 (e_K E)); [|lia]. cbn [assert guard bind]. rewrite Ell. cbn [bind]. split; [auto|]. split; [auto|].
  intros n k Hn Hk. rewrite Gy by auto. unfold post. do 3 f_equal; [apply exp_ln, G; auto|]. apply rsum_ext. intros j Hj. apply exp_ln, G; auto.
Qed.
Lemma nll_ok N K ll labels (f : nat -> nat -> R) : shape ll = [N; K] -> labelled K N labels -> (0 < N)%nat ->
  (forall n k, (n < N)%nat -> (k < K)%nat -> get ll [n; k] = Fin (f n k)) ->
  nll_loss ll labels = Ok (Fin (- mean N (fun n => f n (get labels [n])))).
Proof.
  intros Sl [Sb Hb] HN H. unfold nll_loss, size. rewrite Sl, Sb. cbn [nth length]. rewrite eqb_list_refl. cbn [Nat.eqb andb].
  assert (FB: forallb (fun n => get labels [n] <? K)%nat (seq 0 N) = true).
  { apply forallb_forall. intros n Hn. apply in_seq in Hn. apply Nat.ltb_lt. apply Hb. lia. }
  rewrite FB. rewrite (nsum_fin N _ (fun n => f n (get labels [n]))) by (intros n Hn; apply H; auto). cbn [nneg]. rewrite ndiv_fin by auto.
  do 2 f_equal. unfold mean. field. apply not_0_INR. lia.
Qed.
End Disc.

(** The loss is the mean of minus the log-posterior of the labels, and positive.  The accuracy is the share of the rows whose label is predicted.  A
    loss below ln 2 / N leaves no mistake. *)
Theorem C62_discriminative : forall V g o (E : einet V) N x labels, accepted g o E -> batch E N x -> (0 < N)%nat -> (1 < e_K E)%nat -> labelled (e_K E) N labels ->
  exists loss acc ps, cross_entropy_and_accuracy E x labels = Ok (Fin loss, Fin acc) /\
    loss = - mean N (fun n => ln (post E x n (get labels [n]))) /\ 0 < loss /\
    (forall n, (n < N)%nat -> predicts E x n (ps n)) /\
    acc = mean N (fun n => if (get labels [n] =? ps n)%nat then 1 else 0) /\ 0 <= acc <= 1 /\
    (loss < ln 2 / INR N -> acc = 1).
Proof.
  intros V g o E N x labels A HB HN HK HL. destruct (posterior_ln g o E A N x HB HK) as (y & Ey & Sy & Gy). pose proof (lt_0_INR N HN) as NP.
  set (ps := fun n => get (targmax 1 y) [n]).
  exists (- mean N (fun n => ln (post E x n (get labels [n])))), (mean N (fun n => if (get labels [n] =? ps n)%nat then 1 else 0)), ps.
  destruct HL as [Sb Hb].
  assert (PP: forall n, (n < N)%nat -> 0 < post E x n (get labels [n]) < 1).
  { intros n Hn. destruct (post_pos g o E A N x n (get labels [n]) HB Hn (Hb n Hn)) as [? ?]. split; [lra|auto]. }
  assert (LN: forall n, (n < N)%nat -> 0 < - ln (post E x n (get labels [n]))).
  { intros n Hn. destruct (PP n Hn) as [P Q]. apply ln_increasing in Q; [|lra]. rewrite ln_1 in Q. lra. }
  assert (LM: - mean N (fun n => ln (post E x n (get labels [n]))) = mean N (fun n => - ln (post E x n (get labels [n])))).
  { unfold mean. rewrite (rsum_ext N (fun n => - ln _) (fun n => -1 * ln (post E x n (get labels [n])))) by (intros; ring). rewrite rsum_scal_l. field. lra. }
  assert (PR: forall n, (n < N)%nat -> predicts E x n (ps n)).
  { intros n Hn. unfold predicts.
    assert (PS: 0 < rsum (e_K E) (fun j => lik E x None n j)).
    { destruct (forward_ln g o E A N x HB) as (yy & _ & _ & G). apply rsum_pos; [lia|]. intros j Hj. apply (G n j Hn Hj). }
    assert (M: forall j k, (j < e_K E)%nat -> (k < e_K E)%nat -> ln (post E x n j) <= ln (post E x n k) -> - lik E x None n k <= - lik E x None n j).
    { intros j k Hj Hk L. destruct (post_pos g o E A N x n j HB Hn Hj) as [[P1 _] _]. destruct (post_pos g o E A N x n k HB Hn Hk) as [[P2 _] _].
      assert (L2: post E x n j <= post E x n k).
      { destruct (Rle_dec (post E x n j) (post E x n k)) as [|D]; auto. apply Rnot_le_lt in D. apply ln_increasing in D; auto. lra. }
      unfold post in L2. apply (Rmult_le_compat_r (rsum (e_K E) (fun j => lik E x None n j))) in L2; [|lra].
      unfold Rdiv in L2. rewrite !Rmult_assoc, Rinv_l, !Rmult_1_r in L2 by lra. lra. }
    assert (M': forall j k, (j < e_K E)%nat -> (k < e_K E)%nat -> ln (post E x n j) < ln (post E x n k) -> - lik E x None n k < - lik E x None n j).
    { intros j k Hj Hk L. destruct (Rlt_dec (- lik E x None n k) (- lik E x None n j)) as [|D]; auto. apply Rnot_lt_le in D. exfalso.
      assert (ln (post E x n k) <= ln (post E x n j)); [|lra]. unfold post.
      destruct (post_pos g o E A N x n k HB Hn Hk) as [[P2 _] _]. apply ln_mono; [exact P2|]. apply ratio_le; lra. }
    assert (PN: ps n = nargmax (e_K E) (fun k => get y [n; k])).
    { unfold ps, targmax, reduce, size. cbn [get insert_nth]. rewrite Sy. reflexivity. }
    assert (HF: forall k, (k < e_K E)%nat -> get y [n; k] = Fin (ln (post E x n k))) by (intros; auto).
    assert (HK0: (0 < e_K E)%nat) by lia.
    pose proof (nargmax_lt (e_K E) (fun k => get y [n; k]) HK0) as B. rewrite PN. split; [exact B|]. split.
    - intros k Hk. apply M; auto. apply (nargmax_max (e_K E) (fun k => get y [n; k]) (fun k => ln (post E x n k)) HK0 HF k Hk).
    - intros k Hk. apply M'; auto; [lia|]. apply (nargmax_first (e_K E) (fun k => get y [n; k]) (fun k => ln (post E x n k)) HK0 HF k Hk). }
  assert (AC: 0 <= mean N (fun n => if (get labels [n] =? ps n)%nat then 1 else 0) <= 1).
  { unfold mean. split.
    - apply Rmult_le_pos; [apply rsum_nonneg; intros n _; destruct (_ =? _)%nat; lra|left; apply Rinv_0_lt_compat; auto].
    - apply (Rmult_le_reg_r (INR N)); auto. unfold Rdiv. rewrite Rmult_assoc, Rinv_l, Rmult_1_l, Rmult_1_r by lra.
      rewrite <- (Rmult_1_r (INR N)), <- rsum_const. apply rsum_le. intros n _. destruct (_ =? _)%nat; lra. }
  split; [|split; [reflexivity|split; [|split; [exact PR|split; [reflexivity|split; [exact AC|]]]]]].
  - unfold cross_entropy_and_accuracy. rewrite Ey. cbn [bind].
    rewrite (nll_ok N (e_K E) y labels (fun n k => ln (post E x n k)) Sy (conj Sb Hb) HN Gy). cbn [bind]. do 2 f_equal.
    unfold accuracy, size. rewrite Sy. cbn [nth]. rewrite ndiv_fin by auto. f_equal. unfold mean. f_equal.
    assert (C: forall l, INR (length (filter (fun n => get labels [n] =? get (targmax 1 y) [n])%nat l)) = lsum (fun n => if (get labels [n] =? ps n)%nat then 1 else 0) l).
    { induction l as [|a l IH]; [reflexivity|]. cbn [filter lsum]. fold (ps a). destruct (get labels [a] =? ps a)%nat; [cbn [length]; rewrite S_INR|]; rewrite IH; ring. }
    apply C.
  - rewrite LM. unfold mean. apply Rdiv_lt_0_compat; auto. apply rsum_pos; auto.
  - intros HLs. rewrite LM in HLs. unfold mean in HLs. apply (Rmult_lt_compat_r (INR N)) in HLs; auto. unfold Rdiv in HLs.
    rewrite !Rmult_assoc, Rinv_l, !Rmult_1_r in HLs by lra.
    unfold mean. rewrite (rsum_ext N _ (fun _ => 1)). { rewrite rsum_const. field. lra. }
    intros n Hn. destruct (Nat.eqb_spec (get labels [n]) (ps n)) as [|D]; auto. exfalso.
    assert (IN: In n (seq 0 N)) by (apply in_seq; lia).
    pose proof (lsum_term_le (fun n => - ln (post E x n (get labels [n]))) (seq 0 N) n IN) as LT. cbn beta in LT.
    assert (LT': - ln (post E x n (get labels [n])) < ln 2).
    { unfold rsum in HLs. assert (Z: forall b, In b (seq 0 N) -> 0 <= - ln (post E x b (get labels [b]))) by (intros b Hbb; apply in_seq in Hbb; left; apply LN; lia). specialize (LT Z). lra. }
    destruct (PP n Hn) as [P1 _]. destruct (PR n Hn) as (Q1 & Q2 & _). specialize (Q2 _ (Hb n Hn)). cbn beta in Q2.
    destruct (post_pos g o E A N x n (ps n) HB Hn Q1) as [[P2 _] _].
    assert (H2: / 2 < post E x n (get labels [n])).
    { apply half_lt; auto. }
    assert (LE: post E x n (get labels [n]) <= post E x n (ps n)).
    { unfold post. apply ratio_le; [|lra]. destruct (forward_ln g o E A N x HB) as (yy & _ & _ & G). apply rsum_pos; [lia|]. intros j Hj. apply (G n j Hn Hj). }
    pose proof (post_sum g o E A N x n HB Hn) as SM.
    assert (TWO: post E x n (get labels [n]) + post E x n (ps n) <= rsum (e_K E) (fun k => post E x n k)).
    { rewrite <- (rsum_indicator (e_K E) (get labels [n]) (fun k => post E x n k) (Hb n Hn)) at 1.
      rewrite <- (rsum_indicator (e_K E) (ps n) (fun k => post E x n k) Q1) at 1. rewrite <- rsum_plus. apply rsum_le. intros k Hk.
      destruct (post_pos g o E A N x n k HB Hn Hk) as [[P3 _] _].
      destruct (Nat.eqb_spec k (get labels [n])); destruct (Nat.eqb_spec k (ps n)); try lra. congruence. }
    lra.
Qed.
Print Assumptions C62_discriminative.
(** One class: no posterior.  A label that is not a class, or labels of another shape: an error. *)
Theorem C62_errors : forall V g o (E : einet V) N x labels, accepted g o E -> batch E N x ->
  (e_K E = 1%nat -> cross_entropy_and_accuracy E x labels = Err AssertionError) /\
  ((1 < e_K E)%nat -> shape labels = [N] -> (exists n, (n < N)%nat /\ (e_K E <= get labels [n])%nat) -> cross_entropy_and_accuracy E x labels = Err IndexErr) /\
  ((1 < e_K E)%nat -> shape labels <> [N] -> cross_entropy_and_accuracy E x labels = Err ValueErr).
Proof.
  intros V g o E N x labels A HB. split; [|split].
  - intros K1. unfold cross_entropy_and_accuracy, posterior. rewrite K1. reflexivity.
  - intros HK Sb (n & Hn & Hl). destruct (posterior_ln g o E A N x HB HK) as (y & Ey & Sy & _). unfold cross_entropy_and_accuracy. rewrite Ey. cbn [bind].
    unfold nll_loss, size. rewrite Sy, Sb. cbn [nth length]. rewrite eqb_list_refl. cbn [Nat.eqb andb].
    destruct (forallb _ _) eqn:FB; [|reflexivity]. exfalso. rewrite forallb_forall in FB. specialize (FB n ltac:(apply in_seq; lia)). apply Nat.ltb_lt in FB. lia.
  - intros HK Sb. destruct (posterior_ln g o E A N x HB HK) as (y & Ey & Sy & _). unfold cross_entropy_and_accuracy. rewrite Ey. cbn [bind].
    unfold nll_loss, size. rewrite Sy. cbn [nth length]. destruct (eqb_list (shape labels) [N]) eqn:EL; [|reflexivity]. apply eqb_list_eq in EL. contradiction.
Qed.
Print Assumptions C62_errors.
(** Whatever the class frequencies [r] of a row are, the expected loss is at least their entropy, and equals it exactly if they are
    the posterior. *)
Theorem C62_proper : forall V g o (E : einet V) x, accepted g o E -> batch E 1 x -> (1 < e_K E)%nat ->
  forall r : nat -> R, (forall k, (k < e_K E)%nat -> 0 <= r k) -> rsum (e_K E) r = 1 ->
  exists loss, (forall k, (k < e_K E)%nat -> exists a, cross_entropy_and_accuracy E x (mkT [1%nat] (fun _ => k)) = Ok (Fin (loss k), a)) /\
    rsum (e_K E) (fun k => r k * - ln (r k)) <= rsum (e_K E) (fun k => r k * loss k) /\
    (rsum (e_K E) (fun k => r k * - ln (r k)) = rsum (e_K E) (fun k => r k * loss k) <-> forall k, (k < e_K E)%nat -> r k = post E x 0 k).
Proof.
  intros V g o E x A HB HK r Hr Sr. exists (fun k => - ln (post E x 0 k)). split.
  - intros k Hk. destruct (C62_discriminative V g o E 1 x (mkT [1%nat] (fun _ => k)) A HB ltac:(lia) HK) as (loss & acc & ps & EQ & EL & _).
    { split; [reflexivity|]. intros; exact Hk. }
    exists (Fin acc). rewrite EQ, EL. do 3 f_equal. unfold mean. rewrite rsum_S, rsum_0. cbn [get INR]. field.
  - assert (G: forall k, In k (seq 0 (e_K E)) -> 0 <= r k /\ 0 < post E x 0 k).
    { intros k Hk. apply in_seq in Hk. split; [apply Hr; lia|]. apply (post_pos g o E A 1 x 0 k HB); lia. }
    pose proof (gibbs r (fun k => post E x 0 k) (seq 0 (e_K E)) G Sr (post_sum g o E A 1 x 0 HB ltac:(lia))) as (L & Q). split; [exact L|].
    unfold rsum at 1 2. rewrite Q. split; intros H k Hk; [apply H; apply in_seq; lia|apply H; apply in_seq in Hk; lia].
Qed.
Print Assumptions C62_proper.
(** main.py with classification: the loss is that of the joint density of data and labels; it differs from the cross entropy by the
    generative loss and a constant. *)
Theorem C62_classification : forall V g o (E : einet V) N x labels, accepted g o E -> batch E N x -> (0 < N)%nat -> (1 < e_K E)%nat -> labelled (e_K E) N labels ->
  exists loss ce gen acc, loss_is (train_loss E true x labels) loss /\ cross_entropy_and_accuracy E x labels = Ok (Fin ce, acc) /\ loss_is (train_loss E false x labels) gen /\
    loss = - mean N (fun n => ln (lik E x None n (get labels [n]))) /\ loss = ce + gen - ln (INR (e_K E)).
Proof.
  intros V g o E N x labels A HB HN HK HL. pose proof (lt_0_INR N HN) as NP. pose proof (lt_0_INR (e_K E) ltac:(lia)) as KP.
  destruct (C62_discriminative V g o E N x labels A HB HN HK HL) as (ce & acc & ps & EQ & EL & _). destruct HL as [Sb Hb].
  exists (- mean N (fun n => ln (lik E x None n (get labels [n])))), ce, (- mean N (fun n => ln (marg E x n))), (Fin acc).
  destruct (forward_ln g o E A N x HB) as (y & Ey & Sy & G). destruct (posterior_ln g o E A N x HB HK) as (p & Ep & _).
  split; [|split; [exact EQ|split; [apply (C61_generative V g o E N x labels A HB HN)|split; [reflexivity|]]]].
  - unfold loss_is, train_loss. rewrite Ey. cbn [bind]. rewrite Ep. cbn [bind].
    apply (nll_ok N (e_K E) y labels (fun n k => ln (lik E x None n k)) Sy (conj Sb Hb) HN). intros n k Hn Hk. apply (G n k Hn Hk).
  - rewrite EL. unfold mean. rewrite (rsum_ext N (fun n => ln (lik E x None n (get labels [n]))) (fun n => (ln (post E x n (get labels [n])) + ln (marg E x n)) + ln (INR (e_K E)))).
    + rewrite !rsum_plus, rsum_const. field. lra.
    + intros n Hn. assert (PS: 0 < rsum (e_K E) (fun j => lik E x None n j)) by (apply rsum_pos; [lia|]; intros j Hj; apply (G n j Hn Hj)).
      destruct (G n _ Hn (Hb n Hn)) as [P _]. unfold post, marg, Rdiv. rewrite !ln_mult, !ln_Rinv by (auto using Rinv_0_lt_compat). ring.
Qed.
Print Assumptions C62_classification.
Lemma vectors_length B n : length (vectors B n) = (B ^ n)%nat.
Proof.
  induction n as [|n IH]; [reflexivity|]. cbn [vectors Nat.pow]. rewrite <- IH.
  assert (L: forall l : list nat, length (flat_map (fun v => map (cons v) (vectors B n)) l) = (length l * length (vectors B n))%nat).
  { induction l as [|a l IHl]; [reflexivity|]. cbn [flat_map length]. rewrite app_length, map_length, IHl. cbn [Nat.mul]. lia. }
  rewrite L, seq_length. reflexivity.
Qed.
(** It is not the cross entropy of the posterior: except when there are as many classes as data points, some data point separates them. *)
Theorem C62_classification_refuted : forall g o (E : einet nat) B k, accepted g o E -> discrete_leaf B (leafE E) -> (1 < e_K E)%nat -> (k < e_K E)%nat ->
  (B ^ (e_C E * e_F E))%nat <> e_K E ->
  exists w loss ce acc, In w (vectors B (e_C E * e_F E)) /\
    loss_is (train_loss E true (point (e_C E) (e_F E) w) (mkT [1%nat] (fun _ => k))) loss /\
    cross_entropy_and_accuracy E (point (e_C E) (e_F E) w) (mkT [1%nat] (fun _ => k)) = Ok (Fin ce, acc) /\ loss <> ce.
Proof.
  intros g o E B k A HB HK Hk HN. pose proof (lt_0_INR (e_K E) ltac:(lia)) as KP. pose proof (accepted_ok g o E A) as HE.
  set (m := fun w => marg E (point (e_C E) (e_F E) w) 0).
  destruct (Forall_Exists_dec (fun w => m w = 1 / INR (e_K E)) (fun w => Req_EM_T _ _) (vectors B (e_C E * e_F E))) as [AL|EX].
  - exfalso. rewrite Forall_forall in AL. apply HN.
    assert (S1: lsum m (vectors B (e_C E * e_F E)) = 1).
    { unfold m, marg, Rdiv. rewrite lsum_scal_r. unfold rsum. rewrite lsum_swap.
      rewrite (lsum_ext _ (fun _ => 1)). { rewrite lsum_const, seq_length. field. lra. }
      intros j Hj. apply in_seq in Hj. apply (lik_normalized E HE B HB). lia. }
    rewrite (lsum_ext m (fun _ => 1 / INR (e_K E))) in S1 by auto. rewrite lsum_const, vectors_length in S1.
    apply INR_eq. apply (Rmult_eq_compat_r (INR (e_K E))) in S1. unfold Rdiv in S1. rewrite Rmult_1_l, Rmult_assoc, Rinv_l in S1 by lra. lra.
  - apply Exists_exists in EX as (w & Hw & NE). exists w.
    destruct (C62_classification nat g o E 1 (point (e_C E) (e_F E) w) (mkT [1%nat] (fun _ => k)) A) as (loss & ce & gen & acc & L1 & L2 & L3 & L4 & L5); auto.
    { apply (point_batch E B); auto. } { split; [reflexivity|]. intros; exact Hk. }
    exists loss, ce, acc. repeat (split; [assumption|]). intros EQ. apply NE.
    pose proof (C61_generative nat g o E 1 (point (e_C E) (e_F E) w) (mkT [1%nat] (fun _ => k)) A ltac:(apply (point_batch E B); auto) ltac:(lia)) as L6.
    unfold loss_is in L3, L6. rewrite L6 in L3. injection L3 as <-. unfold mean in L5. rewrite rsum_S, rsum_0 in L5. cbn [INR] in L5. fold (m w) in L5.
    assert (LL: ln (m w) = ln (1 / INR (e_K E))). { unfold Rdiv at 1. rewrite Rmult_1_l, ln_Rinv by auto. lra. }
    apply ln_inv in LL; auto; [apply (marg_pos nat g o E 1); auto; apply (point_batch E B); auto|apply Rdiv_lt_0_compat; lra].
Qed.
Print Assumptions C62_classification_refuted.

(** * C63: bits per dimension *)
Lemma bpd_term a b d l : 0 < d -> ln 2 * d <> 0 -> l = Fin a -> ndiv (nneg (nsub l (Fin (b * d)))) (Fin (ln 2 * d)) = Fin (- a / (ln 2 * d) + b / ln 2).
Proof.
  intros Hd N ->. cbn [nsub nneg nadd ndiv]. destruct (Req_EM_T (ln 2 * d) 0); [contradiction|]. f_equal.
  assert (ln 2 <> 0) by (intros Z; apply N; rewrite Z; ring). assert (d <> 0) by lra. field. auto.
Qed.
Lemma ln2_pos : 0 < ln 2.
Proof. rewrite <- ln_1. apply ln_increasing; lra. Qed.
(** calc_bpd on the log-likelihoods of a batch: the mean number of bits per pixel under the network's density, plus log2 of the number of bins. *)
Theorem C63_bpd : forall V g o (E : einet V) N x D gauss n_bins, accepted g o E -> batch E N x -> (0 < N)%nat -> (0 < D)%nat ->
  exists y lls, forward E x None = Ok y /\ log_likelihoods y None = Ok lls /\
    calc_bpd lls D gauss n_bins = Fin (mean N (fun n => - (ln (marg E x n) / ln 2) / INR D) + ln n_bins / ln 2).
Proof.
  intros V g o E N x D gauss n_bins A HB HN HD. destruct (C61_log_likelihoods V g o E N x A HB) as (y & lls & Ey & El & Sl & G).
  exists y, lls. split; [auto|]. split; [auto|]. pose proof ln2_pos as L2. pose proof (lt_0_INR D HD) as DP. pose proof (lt_0_INR N HN) as NP.
  assert (NZ: ln 2 * INR D <> 0) by (apply Rmult_integral_contrapositive; split; lra).
  unfold calc_bpd. replace (if gauss then _ else _) with (tmean (tmap (fun l => ndiv (nneg (nsub l (Fin (ln n_bins * INR D)))) (Fin (ln 2 * INR D))) lls)) by (destruct gauss; reflexivity).
  assert (S: rsum N (fun n => - ln (marg E x n) / (ln 2 * INR D) + ln n_bins / ln 2) / INR N = mean N (fun n => - (ln (marg E x n) / ln 2) / INR D) + ln n_bins / ln 2).
  { rewrite rsum_plus, rsum_const. unfold mean. rewrite (rsum_ext N (fun n => - ln (marg E x n) / (ln 2 * INR D)) (fun n => - (ln (marg E x n) / ln 2) / INR D)); [field; split; lra|].
    intros n _. field. split; lra. }
  unfold tmean. destruct (Nat.eqb_spec (e_K E) 1) as [K1|K1].
  - destruct (total2 (tmap (fun l => ndiv (nneg (nsub l (Fin (ln n_bins * INR D)))) (Fin (ln 2 * INR D))) lls) N 1 (fun n _ => - ln (marg E x n) / (ln 2 * INR D) + ln n_bins / ln 2)) as [-> ->].
    { exact Sl. } { intros n k Hn Hk. replace k with 0%nat by lia. cbn [tmap get]. apply bpd_term; auto. }
    rewrite Nat.mul_1_r, ndiv_fin by auto. f_equal. rewrite <- S. f_equal. apply rsum_ext. intros n _. rewrite rsum_S, rsum_0. ring.
  - destruct (total1 (tmap (fun l => ndiv (nneg (nsub l (Fin (ln n_bins * INR D)))) (Fin (ln 2 * INR D))) lls) N (fun n => - ln (marg E x n) / (ln 2 * INR D) + ln n_bins / ln 2)) as [-> ->].
    { exact Sl. } { intros n Hn. cbn [tmap get]. apply bpd_term; auto. }
    rewrite ndiv_fin by auto. f_equal. exact S.
Qed.
Print Assumptions C63_bpd.
(** For data on a grid of bins to which uniform noise is added (utils.py:54-82), the expected value is an upper bound for the bits per pixel of the
    bin: [Int] averages over the noise [u], [p] is the mean density in the bin, and the bin has volume [n_bins] to the power of minus [D]. *)
Theorem C63_dequantized : forall V U g o (E : einet V) (x : U -> tensor (option V)) D gauss n_bins (Int : (U -> R) -> R -> Prop) p b bpd,
  accepted g o E -> (forall u, batch E 1 (x u)) -> (0 < D)%nat -> 0 < n_bins -> linear_integral Int -> Int (fun _ => 1) 1 ->
  Int (fun u => marg E (x u) 0) p -> 0 < p -> Int bpd b ->
  (forall u y lls, forward E (x u) None = Ok y -> log_likelihoods y None = Ok lls -> calc_bpd lls D gauss n_bins = Fin (bpd u)) ->
  - (ln (p * (1 / n_bins) ^ D) / ln 2) / INR D <= b.
Proof.
  intros V U g o E x D gauss n_bins Int p b bpd A HB HD Hn HI I1 Ip Hp Ib Hbpd. pose proof ln2_pos as L2. pose proof (lt_0_INR D HD) as DP.
  assert (Q: forall u, bpd u = - (ln (marg E (x u) 0) / ln 2) / INR D + ln n_bins / ln 2).
  { intros u. destruct (C63_bpd V g o E 1 (x u) D gauss n_bins A (HB u) ltac:(lia) HD) as (y & lls & Ey & El & EQ).
    specialize (Hbpd u y lls Ey El). rewrite EQ in Hbpd. injection Hbpd as <-. unfold mean. rewrite rsum_S, rsum_0. cbn [INR]. field. split; lra. }
  assert (P: forall u, 0 <= (ln p - 1) * 1 + (/ p * marg E (x u) 0 + ((ln 2 * INR D) * bpd u + (- (ln n_bins * INR D)) * 1))).
  { intros u. pose proof (marg_pos V g o E 1 (x u) 0 A (HB u) ltac:(lia)) as M. rewrite Q.
    replace (ln 2 * INR D * (- (ln (marg E (x u) 0) / ln 2) / INR D + ln n_bins / ln 2)) with (- ln (marg E (x u) 0) + ln n_bins * INR D) by (field; split; lra).
    pose proof (ln_le (marg E (x u) 0 / p) ltac:(apply Rdiv_lt_0_compat; auto)) as L. unfold Rdiv in L. rewrite ln_mult, ln_Rinv in L by (auto using Rinv_0_lt_compat).
    rewrite (Rmult_comm (/ p)). lra. }
  pose proof (li_plus Int HI _ _ _ _ (li_scal Int HI (ln p - 1) _ _ I1) (li_plus Int HI _ _ _ _ (li_scal Int HI (/ p) _ _ Ip)
    (li_plus Int HI _ _ _ _ (li_scal Int HI (ln 2 * INR D) _ _ Ib) (li_scal Int HI (- (ln n_bins * INR D)) _ _ I1)))) as S.
  pose proof (li_pos Int HI _ _ P S) as T. rewrite Rinv_l in T by lra.
  assert (LP: ln (p * (1 / n_bins) ^ D) = ln p - ln n_bins * INR D).
  { rewrite ln_mult; [|auto|apply pow_lt, Rdiv_lt_0_compat; lra]. rewrite ln_pow by (apply Rdiv_lt_0_compat; lra). unfold Rdiv. rewrite Rmult_1_l, ln_Rinv by auto. ring. }
  rewrite LP. apply (Rmult_le_reg_r (ln 2 * INR D)); [apply Rmult_lt_0_compat; auto|].
  replace (- ((ln p - ln n_bins * INR D) / ln 2) / INR D * (ln 2 * INR D)) with (ln n_bins * INR D - ln p) by (field; split; lra). lra.
Qed.
Print Assumptions C63_dequantized.
(** For discrete leaves the likelihood already is a probability; the value is not the mean code length in bits per pixel unless there is one bin. *)
Theorem C63_discrete_refuted : forall V g o (E : einet V) N x D gauss n_bins, accepted g o E -> batch E N x -> (0 < N)%nat -> (0 < D)%nat -> 1 < n_bins ->
  exists y lls, forward E x None = Ok y /\ log_likelihoods y None = Ok lls /\
    calc_bpd lls D gauss n_bins <> Fin (mean N (fun n => - (ln (marg E x n) / ln 2) / INR D)).
Proof.
  intros V g o E N x D gauss n_bins A HB HN HD Hb. destruct (C63_bpd V g o E N x D gauss n_bins A HB HN HD) as (y & lls & Ey & El & EQ).
  exists y, lls. split; [auto|]. split; [auto|]. rewrite EQ. intros Z. injection Z as Z. pose proof ln2_pos as L2.
  assert (0 < ln n_bins / ln 2); [|lra]. apply Rdiv_lt_0_compat; auto. rewrite <- ln_1. apply ln_increasing; lra.
Qed.
Print Assumptions C63_discrete_refuted.
(** The Lightning modules scale every pixel of an 8-bit image to a count in the support of a binomial leaf with 8 bits. *)
Theorem C63_pixels : forall j, (0 <= j <= 255)%Z ->
  exists v, lit_preprocess true (IZR j / 255) = IZR v /\ in_binomial (binomial_total_count 8) v.
Proof. intros j Hj. exists j. split; [unfold lit_preprocess; field|]. unfold in_binomial. change (binomial_total_count 8) with 255%Z. exact Hj. Qed.
Print Assumptions C63_pixels.
(** With fewer bits white pixels are outside the support. *)
Theorem C63_pixels_refuted : forall n_bits, (n_bits < 8)%nat ->
  exists j, (0 <= j <= 255)%Z /\ forall v, lit_preprocess true (IZR j / 255) = IZR v -> ~ in_binomial (binomial_total_count n_bits) v.
Proof.
  intros n Hn. exists 255%Z. split; [lia|]. intros v Hv. unfold lit_preprocess in Hv. replace (255 / 255 * 255) with 255 in Hv by field. apply eq_IZR in Hv. subst v.
  unfold in_binomial, binomial_total_count. pose proof (Z.pow_lt_mono_r 2 (Z.of_nat n) 8 ltac:(lia) ltac:(lia) ltac:(lia)). change (2 ^ 8)%Z with 256%Z in H. lia.
Qed.
Print Assumptions C63_pixels_refuted.

(** * A network of the constructor meets the hypotheses *)
(** Two rows with missing entries, labels 2 and 0, three classes. *)
Definition ex_labels : tensor nat := mkT [2%nat] (fun idx => match idx with [0%nat] => 2 | _ => 0 end%nat).
Example C61_ex : exists g o (E : einet nat) a b, accepted g o E /\ e_K E = 3%nat /\
  loss_is (train_loss E false (two_rows 2 5 ex_missing) ex_labels) a /\ loss_is (negative_log_likelihood E (two_rows 2 5 ex_missing) RMean) b /\ a <= b.
Proof.
  destruct ex_td as (E & A & HF & HC & HR & HK & D & _). assert (HB: batch E 2 (two_rows 2 5 ex_missing)) by (apply two_rows_batch; auto; [intros u; apply (dl_supp 2 _ D)|exact ex_missing_lt]).
  destruct (C61_losses nat ex_td_g ex_td_o E 2 _ ex_labels A HB ltac:(lia)) as (a & b & La & Lb & AB & _). exists ex_td_g, ex_td_o, E, a, b. auto 8.
Qed.
Example C62_ex : exists g o (E : einet nat) loss acc, accepted g o E /\ e_K E = 3%nat /\
  cross_entropy_and_accuracy E (two_rows 2 5 ex_missing) ex_labels = Ok (Fin loss, Fin acc) /\ 0 < loss /\ 0 <= acc <= 1.
Proof.
  destruct ex_td as (E & A & HF & HC & HR & HK & D & _). assert (HB: batch E 2 (two_rows 2 5 ex_missing)) by (apply two_rows_batch; auto; [intros u; apply (dl_supp 2 _ D)|exact ex_missing_lt]).
  assert (HL: labelled (e_K E) 2 ex_labels). { rewrite HK. split; [reflexivity|]. intros n Hn. destruct n as [|[|]]; [| |lia]; cbn; lia. }
  destruct (C62_discriminative nat ex_td_g ex_td_o E 2 _ ex_labels A HB ltac:(lia) ltac:(lia) HL) as (loss & acc & ps & EQ & _ & LP & _ & _ & AC & _).
  exists ex_td_g, ex_td_o, E, loss, acc. auto 8.
Qed.
Example C62_refuted_ex : exists g o (E : einet nat), accepted g o E /\ discrete_leaf 2 (leafE E) /\ (1 < e_K E)%nat /\ (2 ^ (e_C E * e_F E))%nat <> e_K E.
Proof.
  destruct ex_td as (E & A & HF & HC & HR & HK & D & _). exists ex_td_g, ex_td_o, E. rewrite HF, HC, HK. split; [auto|]. split; [auto|]. split; [lia|]. discriminate.
Qed.
(** Noise with two equally likely values: two data points that differ in one entry. *)
Example C63_ex : exists g o (E : einet nat) (x : bool -> tensor (option nat)) (Int : (bool -> R) -> R -> Prop) p b bpd,
  accepted g o E /\ (forall u, batch E 1 (x u)) /\ linear_integral Int /\ Int (fun _ => 1) 1 /\ Int (fun u => marg E (x u) 0) p /\ 0 < p /\ Int bpd b /\
  (forall u y lls, forward E (x u) None = Ok y -> log_likelihoods y None = Ok lls -> calc_bpd lls 10 true 2 = Fin (bpd u)).
Proof.
  destruct ex_td as (E & A & HF & HC & HR & HK & D & _).
  set (x := fun u : bool => point (e_C E) (e_F E) (if u then [0; 0; 0; 0; 0; 0; 0; 0; 0; 0] else [0; 0; 0; 0; 0; 0; 0; 0; 0; 1])%nat).
  assert (HB: forall u, batch E 1 (x u)). { intros u. apply (point_batch E 2 D). rewrite HC, HF. change (2 * 5)%nat with 10%nat. rewrite vectors_all_idx. apply in_all_idx. destruct u; cbn; lia. }
  exists ex_td_g, ex_td_o, E, x, (fun f a => a = (f true + f false) / 2), ((marg E (x true) 0 + marg E (x false) 0) / 2).
  exists (((mean 1 (fun n => - (ln (marg E (x true) n) / ln 2) / INR 10) + ln 2 / ln 2) + (mean 1 (fun n => - (ln (marg E (x false) n) / ln 2) / INR 10) + ln 2 / ln 2)) / 2).
  exists (fun u => mean 1 (fun n => - (ln (marg E (x u) n) / ln 2) / INR 10) + ln 2 / ln 2).
  split; [exact A|]. split; [exact HB|]. split; [split|].
  - intros f h a H ->. rewrite !H. reflexivity.
  - intros f h a c -> ->. field.
  - intros k f a ->. field.
  - intros f a H ->. pose proof (H true). pose proof (H false). lra.
  - intros f a c -> ->. reflexivity.
  - split; [field|]. split; [reflexivity|]. split.
    + pose proof (marg_pos nat ex_td_g ex_td_o E 1 (x true) 0 A (HB true) ltac:(lia)). pose proof (marg_pos nat ex_td_g ex_td_o E 1 (x false) 0 A (HB false) ltac:(lia)). lra.
    + split; [reflexivity|]. intros u y lls Ey El. destruct (C63_bpd nat ex_td_g ex_td_o E 1 (x u) 10 true 2 A (HB u) ltac:(lia) ltac:(lia)) as (y' & lls' & Ey' & El' & EQ).
      rewrite Ey in Ey'. injection Ey' as <-. rewrite El in El'. injection El' as <-. exact EQ.
Qed.
