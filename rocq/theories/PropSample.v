(** C07-C12, C17, C18, C29: sampling and mpe of every network the constructor accepts. *)
From Coq Require Import List Arith Lia Bool ZArith Reals Lra Permutation.
Import ListNotations.
From Verif Require Import Base RSum Num Tensor Prob Layers Leaf Perm RefLeaf TypeChecks Einet RefEinet RefMpe Build RefBuild Spec RefSpec RefMore RefPack Ex ExBad PropForward.
Local Open Scope R_scope.

(** * C07: unconditional samples *)
(** The law holds when sampling and likelihood group the features alike ([consistent]).
    Missing: the top-down configurations that are not [consistent]; there the law is false, see below. *)
Theorem C07_free_samples_partial : forall g o (E : einet nat) B N xs,
  accepted g o E -> consistent g -> discrete_leaf B (leafE E) -> lf_ctx (leafE E) = true ->
  e_K E = 1%nat -> (0 < N)%nat ->
  (forall n c f, (n < N)%nat -> (c < e_C E)%nat -> (f < e_F E)%nat -> (xs n c f < B)%nat) ->
  Pr B (leafE E) (sample E (mkArgs (Some N) CNone None false false 1 None)) (rows_are N (e_C E) (e_F E) xs) =
  rprod N (fun n => lik E (one_row (e_C E) (e_F E) (xs n)) None 0 0).
Proof. intros g o E B N xs HA Hco HB Hctx. exact (free_single g o E B HA Hco HB Hctx N xs). Qed.
Print Assumptions C07_free_samples_partial.
(** The data point 0000 has likelihood 5/64 but is drawn with probability 4/64. *)
Theorem C07_refuted : exists g o (E : einet nat),
  accepted g o E /\ discrete_leaf 2 (leafE E) /\ lf_ctx (leafE E) = true /\ e_K E = 1%nat /\ e_R E = 1%nat /\
  Pr 2 (leafE E) (sample E (mkArgs (Some 1%nat) CNone None false false 1 None)) (rows_are 1 (e_C E) (e_F E) (fun _ => zeros)) <>
  lik E (one_row (e_C E) (e_F E) zeros) None 0 0.
Proof.
  exists bad1_g, bad1_o, bad1. split; [exact bad1_accepted|]. split; [exact (coin_discrete _ 4 1 2 1 bad1_p_ok)|].
  split; [reflexivity|]. split; [reflexivity|]. split; [reflexivity|].
  pose proof bad1_sample as H1. pose proof bad1_lik as H2. unfold sample1 in H1.
  change (e_C bad1) with 1%nat. change (e_F bad1) with 4%nat. rewrite H1, H2. lra.
Qed.
Print Assumptions C07_refuted.
(** The same with two repetitions: 6/24 against 7/24. *)
Theorem C07_repetitions_refuted : exists g o (E : einet nat),
  accepted g o E /\ discrete_leaf 2 (leafE E) /\ lf_ctx (leafE E) = true /\ e_K E = 1%nat /\ e_R E = 2%nat /\
  Pr 2 (leafE E) (sample E (mkArgs (Some 1%nat) CNone None false false 1 None)) (rows_are 1 (e_C E) (e_F E) (fun _ => zeros)) <>
  lik E (one_row (e_C E) (e_F E) zeros) None 0 0.
Proof.
  exists bad2_g, bad2_o, bad2. split; [exact bad2_accepted|]. split; [exact (coin_discrete _ 2 1 2 2 bad2_p_ok)|].
  split; [reflexivity|]. split; [reflexivity|]. split; [reflexivity|].
  pose proof bad2_sample as H1. pose proof bad2_lik as H2. unfold sample1 in H1.
  change (e_C bad2) with 1%nat. change (e_F bad2) with 2%nat. rewrite H1, H2. lra.
Qed.
Print Assumptions C07_repetitions_refuted.
Lemma bu_consistent : consistent ex_bu_g.
Proof. exact I. Qed.
Lemma td_consistent : consistent ex_td_g.
Proof. unfold consistent, ex_td_g, plain. cbn [g_struct g_R g_F g_depth]. rewrite !nval_nat. cbn. lia. Qed.
Definition alternating (n c f : nat) : nat := ((n + c + f) mod 2)%nat.
Lemma alternating_lt n c f : (alternating n c f < 2)%nat.
Proof. apply Nat.mod_upper_bound. lia. Qed.
Example C07_ex : exists g o (E : einet nat), accepted g o E /\ e_F E = 5%nat /\ e_R E = 2%nat /\
  Pr 2 (leafE E) (sample E (mkArgs (Some 3%nat) CNone None false false 1 None)) (rows_are 3 1 5 alternating) =
  rprod 3 (fun n => lik E (one_row 1 5 (alternating n)) None 0 0).
Proof.
  destruct ex_bu as (E & A & HF & HC & HR & HK & D & X & _). exists ex_bu_g, ex_bu_o, E. repeat (split; [assumption|]).
  pose proof (C07_free_samples_partial _ _ E 2 3 alternating A bu_consistent D X HK ltac:(lia)) as H. rewrite HF, HC in H. apply H.
  intros; apply alternating_lt.
Qed.

(** * C08: class-conditional samples *)
Theorem C08_class_samples_partial : forall g o (E : einet nat) B N y xs,
  accepted g o E -> consistent g -> discrete_leaf B (leafE E) -> lf_ctx (leafE E) = true ->
  (1 < e_K E)%nat -> (y < e_K E)%nat -> (0 < N)%nat ->
  (forall n c f, (n < N)%nat -> (c < e_C E)%nat -> (f < e_F E)%nat -> (xs n c f < B)%nat) ->
  Pr B (leafE E) (sample E (mkArgs (Some N) (CInt y) None false false 1 None)) (rows_are N (e_C E) (e_F E) xs) =
  rprod N (fun n => lik E (one_row (e_C E) (e_F E) (xs n)) None 0 y).
Proof. intros g o E B N y xs HA Hco HB Hctx. exact (free_class g o E B HA Hco HB Hctx N y xs). Qed.
Print Assumptions C08_class_samples_partial.
Example C08_ex : exists g o (E : einet nat), accepted g o E /\ e_K E = 3%nat /\ e_R E = 2%nat /\
  Pr 2 (leafE E) (sample E (mkArgs (Some 2%nat) (CInt 1) None false false 1 None)) (rows_are 2 2 5 alternating) =
  rprod 2 (fun n => lik E (one_row 2 5 (alternating n)) None 0 1).
Proof.
  destruct ex_td as (E & A & HF & HC & HR & HK & D & X & _). exists ex_td_g, ex_td_o, E. repeat (split; [assumption|]).
  pose proof (C08_class_samples_partial _ _ E 2 2 1 alternating A td_consistent D X ltac:(lia) ltac:(lia) ltac:(lia)) as H. rewrite HF, HC in H. apply H.
  intros; apply alternating_lt.
Qed.

(** * C09: the Bayes conditional *)
Theorem C09_conditional_partial : forall g o (E : einet nat) B N e ms xs,
  accepted g o E -> consistent g -> discrete_leaf B (leafE E) -> lf_ctx (leafE E) = true ->
  e_K E = 1%nat -> evidence E N e ms -> (0 < N)%nat ->
  (forall n c f, (n < N)%nat -> (c < e_C E)%nat -> (f < e_F E)%nat -> (xs n c f < B)%nat) ->
  (forall n c f v, (n < N)%nat -> (c < e_C E)%nat -> (f < e_F E)%nat -> observed e ms n c f = Some v -> xs n c f = v) ->
  Pr B (leafE E) (sample E (mkArgs None CNone (Some e) false false 1 ms)) (rows_are N (e_C E) (e_F E) xs) =
  rprod N (fun n => lik E (one_row (e_C E) (e_F E) (xs n)) None 0 0 / lik E e ms n 0).
Proof. intros g o E B N e ms xs HA Hco HB Hctx. exact (given_single g o E B HA Hco HB Hctx N e ms xs). Qed.
Print Assumptions C09_conditional_partial.
Theorem C09_disagreement_impossible_partial : forall g o (E : einet nat) B N e ms xs,
  accepted g o E -> consistent g -> discrete_leaf B (leafE E) -> lf_ctx (leafE E) = true ->
  evidence E N e ms -> (0 < N)%nat ->
  (forall n c f, (n < N)%nat -> (c < e_C E)%nat -> (f < e_F E)%nat -> (xs n c f < B)%nat) ->
  (exists n c f v, (n < N)%nat /\ (c < e_C E)%nat /\ (f < e_F E)%nat /\ observed e ms n c f = Some v /\ xs n c f <> v) ->
  Pr B (leafE E) (sample E (mkArgs None CNone (Some e) false false 1 ms)) (rows_are N (e_C E) (e_F E) xs) = 0.
Proof. intros g o E B N e ms xs HA Hco HB Hctx. exact (given_disagree g o E B HA Hco HB Hctx N e ms xs). Qed.
Print Assumptions C09_disagreement_impossible_partial.
(** Feature 1 is missing in row 0, features 0 and 4 in row 1. *)
Definition ex_ev (n c f : nat) : option nat :=
  match n, f with 0, 1 | 1, 0 | 1, 4 => None | _, _ => Some (alternating n c f) end%nat.
Lemma ex_ev_lt n c f u : ex_ev n c f = Some u -> (u < 2)%nat.
Proof.
  assert (A: forall m, Some (m mod 2)%nat = Some u -> (u < 2)%nat) by (intros m H; assert (u = m mod 2)%nat as -> by congruence; apply Nat.mod_upper_bound; lia).
  unfold ex_ev, alternating. destruct n as [|[|n]], f as [|[|[|[|[|f]]]]]; try discriminate; apply A.
Qed.
Lemma ex_ev_some n c f v : ex_ev n c f = Some v -> alternating n c f = v.
Proof. unfold ex_ev. generalize (alternating n c f). intros a. destruct n as [|[|n]], f as [|[|[|[|[|f]]]]]; congruence. Qed.
Example C09_ex : exists g o (E : einet nat), accepted g o E /\ e_F E = 5%nat /\ e_R E = 2%nat /\
  Pr 2 (leafE E) (sample E (mkArgs None CNone (Some (two_rows 1 5 ex_ev)) false false 1 None)) (rows_are 2 1 5 alternating) =
  rprod 2 (fun n => lik E (one_row 1 5 (alternating n)) None 0 0 / lik E (two_rows 1 5 ex_ev) None n 0).
Proof.
  destruct ex_bu as (E & A & HF & HC & HR & HK & D & X & _). exists ex_bu_g, ex_bu_o, E. repeat (split; [assumption|]).
  pose proof (C09_conditional_partial _ _ E 2 2 (two_rows 1 5 ex_ev) None alternating A bu_consistent D X HK) as H. rewrite HF, HC in H. apply H; try lia.
  - split; [|exact I]. apply two_rows_batch; auto; [intros u; apply (dl_supp 2 _ D)|exact ex_ev_lt].
  - intros; apply alternating_lt.
  - intros n c f v Hn Hc Hf Hv. apply ex_ev_some. exact Hv.
Qed.

(** * C10: the class prior *)
(** sample() draws the class from the softmax of the logits of a separate layer, also given evidence. *)
Theorem C10_free_prior_partial : forall g o (E : einet nat) B N xs,
  accepted g o E -> consistent g -> discrete_leaf B (leafE E) -> lf_ctx (leafE E) = true ->
  (1 < e_K E)%nat -> (0 < N)%nat ->
  (forall n c f, (n < N)%nat -> (c < e_C E)%nat -> (f < e_F E)%nat -> (xs n c f < B)%nat) ->
  Pr B (leafE E) (sample E (mkArgs (Some N) CNone None false false 1 None)) (rows_are N (e_C E) (e_F E) xs) =
  rprod N (fun n => rsum (e_K E) (fun y =>
    exp (toR (o_root o [0; y; 0; 0]%nat)) / rsum (e_K E) (fun j => exp (toR (o_root o [0; j; 0; 0]%nat))) *
    lik E (one_row (e_C E) (e_F E) (xs n)) None 0 y)).
Proof. intros g o E B N xs HA Hco HB Hctx. exact (free_prior g o E B HA Hco HB Hctx N xs). Qed.
Print Assumptions C10_free_prior_partial.
Theorem C10_given_prior_partial : forall g o (E : einet nat) B N e ms xs,
  accepted g o E -> consistent g -> discrete_leaf B (leafE E) -> lf_ctx (leafE E) = true ->
  (1 < e_K E)%nat -> evidence E N e ms -> (0 < N)%nat ->
  (forall n c f, (n < N)%nat -> (c < e_C E)%nat -> (f < e_F E)%nat -> (xs n c f < B)%nat) ->
  (forall n c f v, (n < N)%nat -> (c < e_C E)%nat -> (f < e_F E)%nat -> observed e ms n c f = Some v -> xs n c f = v) ->
  Pr B (leafE E) (sample E (mkArgs None CNone (Some e) false false 1 ms)) (rows_are N (e_C E) (e_F E) xs) =
  rprod N (fun n => rsum (e_K E) (fun y =>
    exp (toR (o_root o [0; y; 0; 0]%nat)) / rsum (e_K E) (fun j => exp (toR (o_root o [0; j; 0; 0]%nat))) *
    (lik E (one_row (e_C E) (e_F E) (xs n)) None 0 y / lik E e ms n y))).
Proof. intros g o E B N e ms xs HA Hco HB Hctx. exact (given_prior g o E B HA Hco HB Hctx N e ms xs). Qed.
Print Assumptions C10_given_prior_partial.
(** With equal logits the class is uniform. *)
Theorem C10_uniform_partial : forall g o (E : einet nat) B N xs c,
  accepted g o E -> consistent g -> discrete_leaf B (leafE E) -> lf_ctx (leafE E) = true ->
  (1 < e_K E)%nat -> (0 < N)%nat -> (forall y, o_root o [0; y; 0; 0]%nat = c) ->
  (forall n c f, (n < N)%nat -> (c < e_C E)%nat -> (f < e_F E)%nat -> (xs n c f < B)%nat) ->
  Pr B (leafE E) (sample E (mkArgs (Some N) CNone None false false 1 None)) (rows_are N (e_C E) (e_F E) xs) =
  rprod N (fun n => rsum (e_K E) (fun y => / INR (e_K E) * lik E (one_row (e_C E) (e_F E) (xs n)) None 0 y)).
Proof.
  intros g o E B N xs c HA Hco HB Hctx HK HN Hc Hx.
  rewrite (free_prior g o E B HA Hco HB Hctx N xs HK HN Hx). apply rprod_ext. intros n _. apply rsum_ext. intros y _.
  rewrite (prior_uniform o E c HK Hc). reflexivity.
Qed.
Print Assumptions C10_uniform_partial.
(** Drawing the class uniformly would give 23/96; sample() gives 15/64. *)
Theorem C10_uniform_refuted : exists g o (E : einet nat),
  accepted g o E /\ consistent g /\ discrete_leaf 2 (leafE E) /\ lf_ctx (leafE E) = true /\ e_K E = 2%nat /\
  Pr 2 (leafE E) (sample E (mkArgs (Some 1%nat) CNone None false false 1 None)) (rows_are 1 (e_C E) (e_F E) (fun _ => zeros)) <>
  rsum (e_K E) (fun y => / INR (e_K E) * lik E (one_row (e_C E) (e_F E) zeros) None 0 y).
Proof.
  exists bad3_g, bad3_o, bad3. split; [exact bad3_accepted|]. split; [cbn; right; reflexivity|]. split; [exact (coin_discrete _ 2 1 2 1 bad3_p_ok)|].
  split; [reflexivity|]. split; [reflexivity|]. change (e_C bad3) with 1%nat. change (e_F bad3) with 2%nat. change (e_K bad3) with 2%nat.
  pose proof bad3_free as H. unfold sample1 in H. rewrite H, !rsum_S, rsum_0, !bad3_lik by lia. cbn [Nat.eqb]. replace (INR 2) with 2 by (simpl; lra). lra.
Qed.
Print Assumptions C10_uniform_refuted.
(** Drawing the class from posterior(e) would give 23/52; sample(evidence=e) gives 47/112. *)
Theorem C10_posterior_refuted : exists g o (E : einet nat) e,
  accepted g o E /\ consistent g /\ discrete_leaf 2 (leafE E) /\ lf_ctx (leafE E) = true /\ e_K E = 2%nat /\ evidence E 1 e None /\
  Pr 2 (leafE E) (sample E (mkArgs None CNone (Some e) false false 1 None)) (rows_are 1 (e_C E) (e_F E) (fun _ => zeros)) <>
  rsum (e_K E) (fun y => lik E e None 0 y / rsum (e_K E) (fun j => lik E e None 0 j) *
    (lik E (one_row (e_C E) (e_F E) zeros) None 0 y / lik E e None 0 y)).
Proof.
  exists bad3_g, bad3_o, bad3, half_row. split; [exact bad3_accepted|]. split; [cbn; right; reflexivity|]. split; [exact (coin_discrete _ 2 1 2 1 bad3_p_ok)|].
  split; [reflexivity|]. split; [reflexivity|]. split; [split; [exact half_row_batch|exact I]|].
  change (e_C bad3) with 1%nat. change (e_F bad3) with 2%nat. change (e_K bad3) with 2%nat.
  pose proof bad3_given as H. unfold sample_half in H. rewrite H, !rsum_S, !rsum_0, !bad3_lik, !bad3_lik_half by lia. cbn [Nat.eqb]. lra.
Qed.
Print Assumptions C10_posterior_refuted.
Example C10_ex : exists g o (E : einet nat), accepted g o E /\ e_K E = 3%nat /\
  Pr 2 (leafE E) (sample E (mkArgs (Some 2%nat) CNone None false false 1 None)) (rows_are 2 2 5 alternating) =
  rprod 2 (fun n => rsum 3 (fun y => exp (toR (o_root o [0; y; 0; 0]%nat)) / rsum 3 (fun j => exp (toR (o_root o [0; j; 0; 0]%nat))) *
    lik E (one_row 2 5 (alternating n)) None 0 y)).
Proof.
  destruct ex_td as (E & A & HF & HC & HR & HK & D & X & _). exists ex_td_g, ex_td_o, E. repeat (split; [assumption|]).
  pose proof (C10_free_prior_partial _ _ E 2 2 alternating A td_consistent D X ltac:(lia) ltac:(lia)) as H. rewrite HF, HC, HK in H. apply H.
  intros; apply alternating_lt.
Qed.

(** * C11: evidence is kept, in every mode *)
(** [outcome supp m r]: the program [m] may end with [r] when leaf draws stay in [supp].
    The classes and the number of samples cannot be given together with evidence (einet.py:578-579).
    That no tensor of the caller is written to is [C11_tensors_kept] in [PropState.v]. *)
Theorem C11_evidence_kept : forall V g o (E : einet V) N e ms mpe mpel T,
  accepted g o E -> lf_ctx (leafE E) = true -> evidence E N e ms -> (0 < N)%nat -> T <> 0 ->
  (mpe || mpel = true -> exists md, lf_mode (leafE E) = Some md /\
     forall c f l r, (c < e_C E)%nat -> (f < e_F E)%nat -> (l < e_L E)%nat -> (r < e_R E)%nat -> lf_supp (leafE E) (md [c; f; l; r]) = true) ->
  forall (supp : list nat -> V -> Prop) r, (forall key v, supp key v -> lf_supp (leafE E) v = true) ->
  outcome supp (sample E (mkArgs None CNone (Some e) mpe mpel T ms)) r ->
  exists t, r = Ok t /\ shape t = shape e /\
    forall n c f, (n < N)%nat -> (c < e_C E)%nat -> (f < e_F E)%nat ->
      match observed e ms n c f with
      | Some v => entry t n c f = Some v
      | None => exists w, entry t n c f = Some w /\ lf_supp (leafE E) w = true
      end.
Proof. intros V g o E N e ms mpe mpel T. exact (evidence_kept g o E N e ms mpe mpel T). Qed.
Print Assumptions C11_evidence_kept.
Example C11_ex : exists g o (E : einet nat), accepted g o E /\ forall r,
  outcome (fun _ v => (v < 2)%nat) (sample E (mkArgs None CNone (Some (two_rows 1 5 ex_ev)) false false 1 None)) r ->
  exists t, r = Ok t /\ entry t 0 0 0 = Some 0%nat /\ exists w, entry t 0 0 1 = Some w /\ (w < 2)%nat.
Proof.
  destruct ex_bu as (E & A & HF & HC & HR & HK & D & X & _). exists ex_bu_g, ex_bu_o, E. split; [exact A|]. intros r Hr.
  assert (S: forall u, lf_supp (leafE E) u = (u <? 2)%nat) by apply (dl_supp 2 _ D).
  destruct (C11_evidence_kept nat ex_bu_g ex_bu_o E 2 (two_rows 1 5 ex_ev) None false false 1 A X) with (supp := fun (_ : list nat) v => (v < 2)%nat) (r := r) as (t & -> & _ & G); auto; try lia; try lra.
  - split; [|exact I]. apply two_rows_batch; auto. exact ex_ev_lt.
  - intros _ v Hv. rewrite S. apply Nat.ltb_lt. exact Hv.
  - exists t. split; auto. split.
    + specialize (G 0%nat 0%nat 0%nat ltac:(lia) ltac:(lia) ltac:(lia)). exact G.
    + specialize (G 0%nat 0%nat 1%nat ltac:(lia) ltac:(lia) ltac:(lia)). cbn in G. destruct G as (w & G & Hw). exists w. split; auto. rewrite S in Hw. apply Nat.ltb_lt. exact Hw.
Qed.

(** * C12: a list of classes *)
(** The call fails unless the caller also passes the length of the list as num_samples (default 1). *)
Theorem C12_class_list_fails : forall V g o (E : einet V) n mpe mpel T cs,
  accepted g o E -> (1 < e_K E)%nat -> length cs <> match n with Some k => k | None => 1%nat end ->
  sample E (mkArgs n (CList cs) None mpe mpel T None) = Fail AssertionError.
Proof.
  intros V g o E n mpe mpel T cs HA HK Hl. 
  exact (class_list_fails g o E (mkArgs n (CList cs) None mpe mpel T None) cs (ac_build g o E HA) (accepted_ok g o E HA) HK eq_refl eq_refl Hl).
Qed.
Print Assumptions C12_class_list_fails.
Theorem C12_class_list_refuted : exists g o (E : einet nat) cs, accepted g o E /\ e_K E = 3%nat /\ (forall c, In c cs -> (c < 3)%nat) /\
  sample E (mkArgs None (CList cs) None false false 1 None) = Fail AssertionError.
Proof.
  destruct ex_td as (E & A & HF & HC & HR & HK & _). exists ex_td_g, ex_td_o, E, [0; 1; 2]%nat. split; [exact A|]. split; [exact HK|].
  split; [intros c [<-|[<-|[<-|[]]]]; lia|]. apply (C12_class_list_fails nat ex_td_g ex_td_o E None); auto; cbn; lia.
Qed.
Print Assumptions C12_class_list_refuted.
Theorem C12_class_list_partial : forall g o (E : einet nat) B cs xs,
  accepted g o E -> consistent g -> discrete_leaf B (leafE E) -> lf_ctx (leafE E) = true ->
  (1 < e_K E)%nat -> (forall c, In c cs -> (c < e_K E)%nat) -> (0 < length cs)%nat ->
  (forall n c f, (n < length cs)%nat -> (c < e_C E)%nat -> (f < e_F E)%nat -> (xs n c f < B)%nat) ->
  Pr B (leafE E) (sample E (mkArgs (Some (length cs)) (CList cs) None false false 1 None)) (rows_are (length cs) (e_C E) (e_F E) xs) =
  rprod (length cs) (fun n => lik E (one_row (e_C E) (e_F E) (xs n)) None 0 (nth n cs 0%nat)).
Proof. intros g o E B cs xs HA Hco HB Hctx. exact (free_list g o E B HA Hco HB Hctx cs xs). Qed.
Print Assumptions C12_class_list_partial.
Example C12_ex : exists g o (E : einet nat), accepted g o E /\ e_K E = 3%nat /\
  Pr 2 (leafE E) (sample E (mkArgs (Some 2%nat) (CList [2; 0]%nat) None false false 1 None)) (rows_are 2 2 5 alternating) =
  rprod 2 (fun n => lik E (one_row 2 5 (alternating n)) None 0 (nth n [2; 0]%nat 0%nat)).
Proof.
  destruct ex_td as (E & A & HF & HC & HR & HK & D & X & _). exists ex_td_g, ex_td_o, E. repeat (split; [assumption|]).
  pose proof (C12_class_list_partial _ _ E 2 [2; 0]%nat alternating A td_consistent D X ltac:(lia)) as H. rewrite HF, HC in H. apply H.
  - intros c [<-|[<-|[]]]; lia.
  - cbn; lia.
  - intros; apply alternating_lt.
Qed.

(** * C17: leaves with one repetition *)
(** Each direction has a grouping of the features ... *)
Theorem C17_forward_groups : forall V (lf : bleaf V) Fo pl, (0 < Fo)%nat -> (0 < lf_F lf)%nat -> lf_R lf = 1%nat ->
  is_perm pl (lf_F lf + simple_dummy (lf_F lf) Fo) ->
  forward_groups lf Fo (simple_forward lf Fo (vec pl)) (fun _ f => (nth f (argsort pl) 0 / simple_card (lf_F lf) Fo)%nat).
Proof. intros V lf Fo pl. exact (simple_forward_groups lf Fo pl). Qed.
Print Assumptions C17_forward_groups.
Theorem C17_sample_groups : forall V (lf : bleaf V) Fo pl, (0 < Fo)%nat -> lf_ctx lf = true ->
  is_perm pl (lf_F lf + simple_dummy (lf_F lf) Fo) ->
  sample_groups lf Fo (fun c => simple_sample lf Fo (vec (argsort pl)) c false) (fun _ f => (nth f (argsort pl) 0 mod Fo)%nat).
Proof. intros V lf Fo pl. exact (simple_sample_groups lf Fo pl). Qed.
Print Assumptions C17_sample_groups.
(** ... they agree with a single group and with one group per feature ... *)
Theorem C17_same_groups_partial : forall V (lf : bleaf V) Fo pl, (0 < Fo)%nat -> (Fo = 1 \/ Fo = lf_F lf)%nat ->
  (0 < lf_F lf)%nat -> lf_R lf = 1%nat -> lf_ctx lf = true -> is_perm pl (lf_F lf + simple_dummy (lf_F lf) Fo) ->
  exists g1 g2, forward_groups lf Fo (simple_forward lf Fo (vec pl)) g1 /\
    sample_groups lf Fo (fun c => simple_sample lf Fo (vec (argsort pl)) c false) g2 /\
    forall r f, (f < lf_F lf)%nat -> g2 r f = g1 r f.
Proof.
  intros V lf Fo pl H0 H1 H2 H3 H4 H5. exists (fun _ => RefLeaf.simple_grp (lf_F lf) Fo pl), (fun _ => RefLeafS.simple_sgrp (lf_F lf) Fo pl).
  split; [apply simple_forward_groups; auto|]. split; [apply simple_sample_groups; auto|].
  intros r f Hf. apply simple_groups_same; auto.
Qed.
Print Assumptions C17_same_groups_partial.
(** ... and disagree in every other case, whatever the permutation. *)
Theorem C17_refuted : forall (lf : bleaf nat) Fo pl, (1 < Fo)%nat -> (Fo < lf_F lf)%nat -> lf_R lf = 1%nat -> lf_ctx lf = true ->
  (1 < lf_L lf)%nat -> (0 < lf_C lf)%nat -> is_perm pl (lf_F lf + simple_dummy (lf_F lf) Fo) ->
  ~ exists grp, (forall r f, (r < lf_R lf)%nat -> (f < lf_F lf)%nat -> (grp r f < Fo)%nat) /\
     forward_groups lf Fo (simple_forward lf Fo (vec pl)) grp /\
     sample_groups lf Fo (fun c => simple_sample lf Fo (vec (argsort pl)) c false) grp.
Proof. exact simple_no_group. Qed.
Print Assumptions C17_refuted.
Example C17_ex : is_perm [3; 0; 4; 1; 2; 5]%nat (lf_F (coin third 5 1 2 1) + simple_dummy 5 2) /\
  forward_groups (coin third 5 1 2 1) 2 (simple_forward (coin third 5 1 2 1) 2 (vec [3; 0; 4; 1; 2; 5]%nat))
    (fun _ f => nth f [0; 1; 1; 0; 0]%nat 0%nat).
Proof.
  assert (P: is_perm [3; 0; 4; 1; 2; 5]%nat (lf_F (coin third 5 1 2 1) + simple_dummy 5 2)) by (cbn; perms).
  split; [exact P|]. pose proof (C17_forward_groups nat (coin third 5 1 2 1) 2 [3; 0; 4; 1; 2; 5]%nat ltac:(lia) ltac:(cbn; lia) eq_refl P) as H.
  intros N t q Hs Hq Ht. destruct (H N t q Hs Hq Ht) as (y & Ey & Sy & Gy). exists y. split; [exact Ey|]. split; [exact Sy|].
  intros n d l r Hn Hd Hl Hr. rewrite (Gy n d l r Hn Hd Hl Hr). reflexivity.
Qed.

(** * C18: leaves with several repetitions *)
Theorem C18_same_groups_partial : forall V (lf : bleaf V) Fo sizes perms, (0 < Fo)%nat -> Fo <> lf_F lf -> lf_ctx lf = true ->
  Permutation sizes (group_sizes (lf_F lf) Fo) -> (forall r, (r < lf_R lf)%nat -> is_perm (perms r) (lf_F lf)) ->
  exists grp, forward_groups lf Fo (fact_forward lf Fo (make_scopes (lf_F lf) Fo (lf_R lf) sizes perms)) grp /\
    sample_groups lf Fo (fun c => fact_sample lf Fo (make_scopes (lf_F lf) Fo (lf_R lf) sizes perms) c false) grp.
Proof.
  intros V lf Fo sizes perms H0 Hne Hctx Hs Hp. pose proof (RefScopes.make_scopes_grp (lf_F lf) Fo (lf_R lf) sizes perms H0 Hs Hp) as Hsc.
  eexists. split; [|apply (fact_sample_groups lf Fo _ _ Hctx Hsc)].
  pose proof (fact_forward_groups lf Fo _ _ Hsc) as H. unfold fact_grp in H. destruct (Nat.eqb_spec (lf_F lf) Fo); [congruence|]. exact H.
Qed.
Print Assumptions C18_same_groups_partial.
(** With one group per feature sampling uses the shuffled groups, the forward pass does not. *)
Theorem C18_refuted : forall (lf : bleaf nat) sizes perms r f, (0 < lf_F lf)%nat ->
  Permutation sizes (group_sizes (lf_F lf) (lf_F lf)) -> (forall r, (r < lf_R lf)%nat -> is_perm (perms r) (lf_F lf)) ->
  lf_ctx lf = true -> (1 < lf_L lf)%nat -> (0 < lf_C lf)%nat ->
  (r < lf_R lf)%nat -> (f < lf_F lf)%nat -> nth f (perms r) 0%nat <> f ->
  let sc := make_scopes (lf_F lf) (lf_F lf) (lf_R lf) sizes perms in
  ~ exists grp, (forall r f, (r < lf_R lf)%nat -> (f < lf_F lf)%nat -> (grp r f < lf_F lf)%nat) /\
     forward_groups lf (lf_F lf) (fact_forward lf (lf_F lf) sc) grp /\
     sample_groups lf (lf_F lf) (fun c => fact_sample lf (lf_F lf) sc c false) grp.
Proof. exact fact_no_group. Qed.
Print Assumptions C18_refuted.
Example C18_ex : exists grp,
  forward_groups (coin third 5 2 2 2) 4 (fact_forward (coin third 5 2 2 2) 4 (make_scopes 5 4 2 [1; 2; 1; 1]%nat ex_td_perm)) grp /\
  sample_groups (coin third 5 2 2 2) 4 (fun c => fact_sample (coin third 5 2 2 2) 4 (make_scopes 5 4 2 [1; 2; 1; 1]%nat ex_td_perm) c false) grp.
Proof.
  apply (C18_same_groups_partial nat (coin third 5 2 2 2) 4 [1; 2; 1; 1]%nat ex_td_perm); try (cbn; lia); [cbn; perms|].
  intros r Hr. cbn in Hr. destruct r as [|[|]]; [| |lia]; unfold ex_td_perm; cbn [Nat.eqb]; perms.
Qed.

(** * C29: mpe *)
(** mpe() makes no random choice ... *)
Theorem C29_deterministic_partial : forall V g o (E : einet V) N e ms,
  accepted g o E -> lf_ctx (leafE E) = true -> lf_mode (leafE E) <> None -> evidence E N e ms -> (0 < N)%nat ->
  exists t, mpe E (Some e) ms = Ret t.
Proof.
  intros V g o E N e ms HA Hctx Hm He HN. 
  pose proof (accepted_ok g o E HA) as HE.
  change (mpe E (Some e) ms) with (sample E (mkArgs None CNone (Some e) true false 1 ms)).
  set (a := mkArgs None CNone (Some e) true false 1 ms) in *. assert (EN: num_samples a = N) by (cbn; apply (batch_size E); apply He).
  destruct (sample_evidence_out E HE a e eq_refl) as [_ O].
  - unfold check_args. cbn. destruct (e_K E =? 1)%nat; reflexivity.
  - rewrite EN. apply evidence_input; auto.
  - rewrite EN; auto.
  - cbn. lra.
  - exact Hctx.
  - intros _. exact Hm.
  - exact (O eq_refl).
Qed.
Print Assumptions C29_deterministic_partial.
(** ... but need not be optimal: it returns 00 with likelihood 23/80 although 10 has 37/80. *)
Theorem C29_optimal_refuted : exists g o (E : einet nat) t x,
  accepted g o E /\ consistent g /\ discrete_leaf 2 (leafE E) /\ e_K E = 1%nat /\ e_C E = 1%nat /\ e_F E = 2%nat /\
  mpe E None None = Ret t /\ shape t = [1; 1; 2]%nat /\ (forall f, (f < 2)%nat -> entry t 0 0 f = Some (zeros 0 f)) /\
  (forall f, (f < 2)%nat -> (x 0 f < 2)%nat) /\
  lik E (one_row 1 2 zeros) None 0 0 < lik E (one_row 1 2 x) None 0 0.
Proof.
  destruct bad4_mpe as (t & Et & St & G0 & G1).
  exists bad4_g, bad4_o, bad4, t, other. split; [exact bad4_accepted|]. split; [cbn; right; reflexivity|]. split; [exact (coin_discrete _ 2 1 2 1 bad4_p_ok)|].
  repeat (split; [reflexivity|]). split; [exact Et|]. split; [exact St|]. split.
  - intros f Hf. unfold entry. rewrite St. cbn [ix]. destruct f as [|[|]]; [exact G0|exact G1|lia].
  - split; [intros f Hf; unfold other; destruct (f =? 0)%nat; lia|]. rewrite bad4_lik, bad4_lik_other. lra.
Qed.
Print Assumptions C29_optimal_refuted.
