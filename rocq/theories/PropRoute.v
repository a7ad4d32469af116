(** C64: what samples of networks follow when sampling and likelihood group the features differently. *)
From Coq Require Import List Arith Lia Bool ZArith Reals Lra Permutation.
Import ListNotations.
From Verif Require Import Base RSum Num Tensor Prob Layers Leaf Perm RefLeaf TypeChecks Einet RefEinet RefEinetS RefNet RefMpe Build RefBuild Spec RefSpec RefSpecS RefMore RefPack Density RefDensity RefDensityS RefRoute RefTemper Ex ExBad PropForward PropSample PropTemper PropDensity.
Local Open Scope R_scope.

(** The values [xs] lie among the values 0 .. B-1 of the leaves. *)
Definition inside (E : einet nat) (B N : nat) (xs : nat -> nat -> nat -> nat) : Prop :=
  forall n c f, (n < N)%nat -> (c < e_C E)%nat -> (f < e_F E)%nat -> (xs n c f < B)%nat.
(** The probability that sample(num_samples=N, class_index=cl) of [E] returns the rows [xs]. *)
Definition drawn (B : nat) (E : einet nat) (N : nat) (cl : class_arg) (xs : nat -> nat -> nat -> nat) : R :=
  Pr B (leafE E) (sample E (mkArgs (Some N) cl None false false 1 None)) (rows_are N (e_C E) (e_F E) xs).
(** Every network that the constructor accepts samples from a network [E'] with the same sizes, leaves, sum layers, mixing layer and root
    layer: the rows are independent and follow the likelihood of [E'], which sums to one.  [E'] differs from [E] only in the assignment of
    features to the groups at the bottom, not at all in [consistent] configurations.  With one repetition [E'] is the network that the
    constructor returns for another random permutation. *)
Theorem C64_samples : forall g o (E : einet nat) B, accepted g o E -> discrete_leaf B (leafE E) -> lf_ctx (leafE E) = true ->
  exists E', same_parameters E E' /\ (consistent g -> E' = E) /\ (e_R E = 1%nat -> exists p, accepted g (with_perm o p) E') /\
    (forall k, (k < e_K E)%nat -> lsum (fun w => lik E' (point (e_C E) (e_F E) w) None 0 k) (vectors B (e_C E * e_F E)) = 1) /\
    forall N xs, (0 < N)%nat -> inside E B N xs ->
      (e_K E = 1%nat -> drawn B E N CNone xs = rprod N (fun n => lik E' (one_row (e_C E) (e_F E) (xs n)) None 0 0)) /\
      ((1 < e_K E)%nat -> drawn B E N CNone xs = rprod N (fun n => rsum (e_K E) (fun y =>
        exp (toR (o_root o [0; y; 0; 0]%nat)) / rsum (e_K E) (fun j => exp (toR (o_root o [0; j; 0; 0]%nat))) *
        lik E' (one_row (e_C E) (e_F E) (xs n)) None 0 y))) /\
      (forall y, (1 < e_K E)%nat -> (y < e_K E)%nat ->
        drawn B E N (CInt y) xs = rprod N (fun n => lik E' (one_row (e_C E) (e_F E) (xs n)) None 0 y)) /\
      (forall cs, (1 < e_K E)%nat -> length cs = N -> (forall c, In c cs -> (c < e_K E)%nat) ->
        drawn B E N (CList cs) xs = rprod N (fun n => lik E' (one_row (e_C E) (e_F E) (xs n)) None 0 (nth n cs 0%nat))).
Proof.
  intros g o E B HA HB Hctx. destruct (walks_exists g o E HA) as (E' & W & Hco & H1). exists E'.
  pose proof (wk_same _ _ W) as S. split; [exact S|]. split; [exact Hco|]. split; [exact H1|].
  destruct S as (S1 & S2 & S3 & S4 & S5 & S6 & _). split.
  - intros k Hk. rewrite <- S1, <- S2. apply (lik_normalized E' (wk_ok _ _ W) B); [rewrite S6; auto|lia].
  - intros N xs HN Hx. unfold drawn.
    assert (Hch: forall cl, (1 < e_K E)%nat \/ cl = CNone -> check_args E (mkArgs (V := nat) (Some N) cl None false false 1 None) = Ok tt).
    { intros cl Hc. unfold check_args. cbn. destruct (Nat.eqb_spec (e_K E) 1); [|destruct cl; reflexivity]. destruct Hc as [Hc|Hc]; [lia|rewrite Hc; reflexivity]. }
    split; [|split; [|split]].
    + intros HK. rewrite (walks_law g o E E' B HA HB Hctx W _ (Hch CNone (or_intror eq_refl)) I eq_refl) by auto.
      cbn [num_samples a_n a_ev]. apply rprod_ext. intros n Hn. rewrite HK, rsum_1. unfold cweight. rewrite HK. cbn [Nat.ltb Nat.leb]. ring.
    + intros HK. rewrite (walks_law g o E E' B HA HB Hctx W _ (Hch CNone (or_intror eq_refl)) I eq_refl) by auto.
      apply rprod_ext. intros n Hn. apply rsum_ext. intros y Hy. f_equal. unfold cweight. destruct (Nat.ltb_spec 1 (e_K E)); [|lia].
      cbn [a_class a_tsum]. apply (wroot_prior g o E HA); auto.
    + intros y HK Hy. rewrite (walks_law g o E E' B HA HB Hctx W _ (Hch (CInt y) (or_introl HK)) (conj HK Hy) eq_refl) by auto.
      apply rprod_ext. intros n Hn. unfold cweight. destruct (Nat.ltb_spec 1 (e_K E)); [|lia]. cbn [a_class].
      apply (rsum_ind (e_K E) y (fun k => lik E' (one_row (e_C E) (e_F E) (xs n)) None 0 k)). auto.
    + intros cs HK Hl Hc. rewrite (walks_law g o E E' B HA HB Hctx W _ (Hch (CList cs) (or_introl HK)) (conj HK (conj Hl Hc)) eq_refl) by auto.
      apply rprod_ext. intros n Hn. cbn [num_samples a_n a_ev] in Hn. unfold cweight. destruct (Nat.ltb_spec 1 (e_K E)); [|lia]. cbn [a_class].
      apply (rsum_ind (e_K E) (nth n cs 0%nat) (fun k => lik E' (one_row (e_C E) (e_F E) (xs n)) None 0 k)). apply Hc. apply nth_In. lia.
Qed.
Print Assumptions C64_samples.

(** The same at any temperature: the network has the sum parameters divided by temperature_sums and the leaves that the draws follow. *)
Theorem C64_temperature : forall g o (E : einet nat) B T lf', accepted g o E -> T <> 0 -> leaf_ok lf' -> same_draws (leafE E) lf' ->
  discrete_leaf B lf' -> lf_ctx (leafE E) = true ->
  exists E1 E', accepted g (cooler o T lf') E1 /\ leafE E1 = lf' /\ same_parameters E1 E' /\ (consistent g -> E' = E1) /\
    (forall k, (k < e_K E)%nat -> lsum (fun w => lik E' (point (e_C E) (e_F E) w) None 0 k) (vectors B (e_C E * e_F E)) = 1) /\
    forall N cl y xs, (0 < N)%nat -> inside E B N xs ->
      (cl = CNone /\ e_K E = 1%nat /\ y = 0%nat \/ cl = CInt y /\ (1 < e_K E)%nat /\ (y < e_K E)%nat) ->
      Pr B lf' (sample E (mkArgs (Some N) cl None false false T None)) (rows_are N (e_C E) (e_F E) xs) =
      rprod N (fun n => lik E' (one_row (e_C E) (e_F E) (xs n)) None 0 y).
Proof.
  intros g o E B T lf' HA HT Hl Hs HB Hctx. set (E1 := cool T lf' E).
  assert (A1: accepted g (cooler o T lf') E1) by (apply accepted_cool; auto; apply Hs). assert (L1: leafE E1 = lf') by apply leafE_cool.
  assert (HB1: discrete_leaf B (leafE E1)) by (rewrite L1; auto). assert (Hc1: lf_ctx (leafE E1) = true) by (rewrite L1, (sd_ctx _ _ Hs); auto).
  destruct (C64_samples g _ E1 B A1 HB1 Hc1) as (E' & S & Hco & _ & Hn & Hd).
  exists E1, E'. split; auto. split; auto. split; auto. split; auto. split; [exact Hn|].
  intros N cl y xs HN Hx Hcl. destruct (Hd N xs HN Hx) as (D1 & _ & D2 & _).
  change (mkArgs (Some N) cl None false false T None) with (with_T (mkArgs (V := nat) (Some N) cl None false false 1 None) T).
  rewrite (sample_cool T lf' E) by auto. fold E1. change (with_T (mkArgs (Some N) cl None false false 1 None) 1) with (mkArgs (V := nat) (Some N) cl None false false 1 None).
  unfold drawn in D1, D2. rewrite L1 in D1, D2. destruct Hcl as [(-> & HK & ->)|(-> & HK & Hy)]; auto.
Qed.
Print Assumptions C64_temperature.

(** Leaves with densities: the expectation of a product of tests of the entries is the product over the rows of the integral of the
    density of [E'] times the tests. *)
Theorem C64_densities : forall V g o (E : einet V) Int EL,
  accepted g o E -> lf_ctx (leafE E) = true -> density_leaf Int (leafE E) -> leaf_expectation EL ->
  exists E', same_parameters E E' /\ (consistent g -> E' = E) /\ (e_R E = 1%nat -> exists p, accepted g (with_perm o p) E') /\
    forall N cl y h ps, (0 < N)%nat -> missing (e_C E) (e_F E) (fun _ _ => @None V) ps ->
      (cl = CNone /\ e_K E = 1%nat /\ y = 0%nat \/ cl = CInt y /\ (1 < e_K E)%nat /\ (y < e_K E)%nat) ->
      (forall n c f v, 0 <= h n c f v) ->
      (forall n c f, (n < N)%nat -> (c < e_C E)%nat -> (f < e_F E)%nat -> leaf_law Int (leafE E) EL c f (h n c f)) ->
      exists I, (forall n, (n < N)%nat ->
          integrates Int (fun z => lik E' (row_tensor (e_C E) (e_F E) z) None 0 y * tests (e_C E) (e_F E) (h n) z) ps (fun _ _ => None) (I n)) /\
        expect EL (sample E (mkArgs (Some N) cl None false false 1 None)) (batch_tests E N h) = rprod N I.
Proof.
  intros V g o E Int EL HA Hctx HD HEL. destruct (walks_exists g o E HA) as (E' & W & Hco & H1). exists E'.
  split; [apply (wk_same _ _ W)|]. split; [exact Hco|]. split; [exact H1|].
  intros N cl y h ps HN Hps Hcl Hh HL.
  destruct (walks_dens g o E E' HA Hctx W Int HD EL HEL (mkArgs (Some N) cl None false false 1 None) h ps) as (I & P1 & P2); auto.
  - unfold check_args. cbn. destruct Hcl as [(-> & HK & _)|(-> & HK & _)]; destruct (Nat.eqb_spec (e_K E) 1); try lia; reflexivity.
  - destruct Hcl as [(-> & _)|(-> & HK & Hy)]; [exact I|split; auto].
  - assert (Hy: (y < e_K E)%nat) by (destruct Hcl as [(_ & HK & ->)|(_ & _ & Hy)]; lia).
    exists (fun n => I n y). split; [intros n Hn; apply P1; auto|]. etransitivity; [exact P2|].
    apply rprod_ext. intros n Hn. unfold cweight. destruct Hcl as [(-> & HK & ->)|(-> & HK & _)].
    + rewrite HK, rsum_1. cbn [Nat.ltb Nat.leb]. ring.
    + destruct (Nat.ltb_spec 1 (e_K E)); [|lia]. cbn [a_class]. apply (rsum_ind (e_K E) y (fun k => I n k)). auto.
Qed.
Print Assumptions C64_densities.

(** The network of [C07_refuted]: 0000 has likelihood 5/64 but 4/64 under the network that sampling walks. *)
Example C64_ex : exists g o (E E' : einet nat), accepted g o E /\ same_parameters E E' /\
  lik E (one_row 1 4 zeros) None 0 0 = 5/64 /\ lik E' (one_row 1 4 zeros) None 0 0 = 4/64 /\
  (exists p, accepted g (with_perm o p) E') /\
  drawn 2 E 3 CNone (fun _ => zeros) = rprod 3 (fun n => lik E' (one_row 1 4 zeros) None 0 0).
Proof.
  destruct (C64_samples bad1_g bad1_o bad1 2 bad1_accepted (coin_discrete _ 4 1 2 1 bad1_p_ok) eq_refl) as (E' & S & _ & A & _ & D).
  exists bad1_g, bad1_o, bad1, E'. split; [exact bad1_accepted|]. split; [exact S|]. split; [exact bad1_lik|].
  assert (I: forall N, inside bad1 2 N (fun _ => zeros)) by (intros N n c f _ _ _; unfold zeros; lia).
  split; [|split; [apply A; reflexivity|]].
  - destruct (D 1%nat (fun _ => zeros) ltac:(lia) (I 1%nat)) as (D1 & _). specialize (D1 eq_refl). rewrite rprod_S, rprod_0, Rmult_1_l in D1.
    cbn [bad1 e_C e_F] in D1. rewrite <- D1. exact bad1_sample.
  - destruct (D 3%nat (fun _ => zeros) ltac:(lia) (I 3%nat)) as (D1 & _). exact (D1 eq_refl).
Qed.
(** Two repetitions: 7/24 against 6/24. *)
Example C64_ex_repetitions : exists g o (E E' : einet nat), accepted g o E /\ same_parameters E E' /\ e_R E = 2%nat /\
  lik E (one_row 1 2 zeros) None 0 0 = 7/24 /\ lik E' (one_row 1 2 zeros) None 0 0 = 6/24 /\
  drawn 2 E 3 CNone (fun _ => zeros) = rprod 3 (fun n => lik E' (one_row 1 2 zeros) None 0 0).
Proof.
  destruct (C64_samples bad2_g bad2_o bad2 2 bad2_accepted (coin_discrete _ 2 1 2 2 bad2_p_ok) eq_refl) as (E' & S & _ & _ & _ & D).
  exists bad2_g, bad2_o, bad2, E'. split; [exact bad2_accepted|]. split; [exact S|]. split; [reflexivity|]. split; [exact bad2_lik|].
  assert (I: forall N, inside bad2 2 N (fun _ => zeros)) by (intros N n c f _ _ _; unfold zeros; lia).
  split.
  - destruct (D 1%nat (fun _ => zeros) ltac:(lia) (I 1%nat)) as (D1 & _). specialize (D1 eq_refl). rewrite rprod_S, rprod_0, Rmult_1_l in D1.
    cbn [bad2 e_C e_F] in D1. rewrite <- D1. exact bad2_sample.
  - destruct (D 3%nat (fun _ => zeros) ltac:(lia) (I 3%nat)) as (D1 & _). exact (D1 eq_refl).
Qed.
