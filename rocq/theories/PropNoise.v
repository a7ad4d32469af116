(** Theorems about the law of differentiable sampling through a whole network (C57). *)
From Coq Require Import List Arith Lia Bool ZArith Reals Lra.
Import ListNotations.
From Verif Require Import Base RSum Num Tensor Prob Layers Circuit Net RefFwd RefSample RefLaw Leaf Perm RefLeaf RefLeafS TypeChecks Einet RefNet RefEinet RefEinetS
  Build RefBuild Spec RefSpec RefSpecS RefPack PropSample Diff RefDiff PropDiff Content Mean NoiseLaw RefNoise Ex ExBad PropForward.
Local Open Scope R_scope.
Local Arguments Nat.div : simpl never.
Local Arguments Nat.modulo : simpl never.
Local Arguments Nat.sub : simpl never.
Local Arguments Nat.mul : simpl never.
Local Arguments Nat.add : simpl never.

(** The bias of all draws of [N] samples: over the categorical choices (D rows of K options per sample), N * D * K * (K + 2) / 10^20. *)
Definition bias {V} (E : einet V) (N : nat) : R :=
  lsum (fun x : nat * nat * nat => let '(_, D, K) := x in INR N * INR D * INR K * (INR K + 2)) (net_choices E) * / 10 ^ 20.
Lemma bias_gaps {V} (E : einet V) N : gaps N (net_choices E) = bias E N.
Proof.
  unfold bias, gaps. rewrite <- lsum_scal_r. apply lsum_ext. intros [[i D] K] _. cbn [fst snd]. unfold gap3, gap1, eps. rewrite mult_INR. ring.
Qed.

(** The mean over the uniform numbers of the expectation over leaf draws, for any bounded function of the samples. *)
Theorem C57_sample_law : forall V (val : V -> R) g o (E : einet V) N mpel T EL (h : tensor num -> R) (h' : tensor (option V) -> R) B,
  accepted g o E -> lf_ctx (leafE E) = true -> (0 < N)%nat -> T <> 0 -> (mpel = true -> lf_mode (leafE E) <> None) ->
  leaf_expectation EL -> (forall key f b, (forall v, Rabs (f v) <= b) -> Rabs (EL key f) <= b) ->
  0 <= B -> (forall t, Rabs (h' t) <= B) ->
  (forall t t', shape t = shape t' -> (forall idx, inb (shape t) idx -> get t idx = match get t' idx with Some v => Fin (val v) | None => NaN end) ->
     wshape (shape t') N (e_C E) (e_F E) -> h t = h' t') ->
  exists m, mean (uniforms N (net_choices E)) (fun u => expect EL (dsample val (fun i idx => u (i :: idx)) E (mkArgs (Some N) CNone None false mpel T None)) h) m /\
    Rabs (m - expect EL (sample E (mkArgs (Some N) CNone None false mpel T None)) h') <= bias E N * B.
Proof.
  intros V val g o E N mpel T EL h h' B HA Hctx HN HT Hmd HEL HBd H0 Hb Hh. pose proof (accepted_ok g o E HA) as HE. rewrite <- bias_gaps.
  apply (dsample_law val E HE (accepted_mixing g o E HA) EL HEL HBd (mkArgs (Some N) CNone None false mpel T None)); auto.
  - discriminate.
  - unfold check_args. cbn. destruct (e_K E =? 1)%nat; reflexivity.
  - intros t t' [A1 A2] A3. apply Hh; auto.
Qed.
Print Assumptions C57_sample_law.
Theorem C57_evidence_law : forall V (val : V -> R) g o (E : einet V) N e ms mpel T EL (h : tensor num -> R) (h' : tensor (option V) -> R) B,
  accepted g o E -> lf_ctx (leafE E) = true -> evidence E N e ms -> (0 < N)%nat -> T <> 0 -> (mpel = true -> lf_mode (leafE E) <> None) ->
  leaf_expectation EL -> (forall key f b, (forall v, Rabs (f v) <= b) -> Rabs (EL key f) <= b) ->
  0 <= B -> (forall t, Rabs (h' t) <= B) ->
  (forall t t', shape t = shape t' -> (forall idx, inb (shape t) idx -> get t idx = match get t' idx with Some v => Fin (val v) | None => NaN end) ->
     wshape (shape t') N (e_C E) (e_F E) -> h t = h' t') ->
  exists m, mean (uniforms N (net_choices E)) (fun u => expect EL (dsample val (fun i idx => u (i :: idx)) E (mkArgs None CNone (Some e) false mpel T ms)) h) m /\
    Rabs (m - expect EL (sample E (mkArgs None CNone (Some e) false mpel T ms)) h') <= bias E N * B.
Proof.
  intros V val g o E N e ms mpel T EL h h' B HA Hctx He HN HT Hmd HEL HBd H0 Hb Hh. pose proof (accepted_ok g o E HA) as HE. rewrite <- bias_gaps.
  set (a := mkArgs None CNone (Some e) false mpel T ms) in *. assert (EN: num_samples a = N) by (cbn; apply (batch_size E); apply He).
  rewrite <- EN in *.
  apply (dsample_law val E HE (accepted_mixing g o E HA) EL HEL HBd a); auto.
  - intros e0 E0. injection E0 as <-. rewrite EN in *. apply evidence_input; auto.
  - unfold check_args. cbn. destruct (e_K E =? 1)%nat; reflexivity.
  - intros t t' [A1 A2] A3. apply Hh; auto.
Qed.
Print Assumptions C57_evidence_law.

(** * Networks with discrete leaves *)
(** The numbers of row [n] are [xs n]. *)
Definition is_nat (v : nat) (x : num) : bool := match x with Fin r => if Req_EM_T r (INR v) then true else false | _ => false end.
Definition num_rows (N C F : nat) (xs : nat -> nat -> nat -> nat) (t : tensor num) : bool :=
  forallb (fun n => forallb (fun c => forallb (fun f => is_nat (xs n c f) (entry t n c f)) (seq 0 F)) (seq 0 C)) (seq 0 N).
Lemma num_rows_same N C F xs (t : tensor num) (t' : tensor (option nat)) : wshape (shape t') N C F -> shape t = shape t' ->
  (forall idx, inb (shape t) idx -> get t idx = match get t' idx with Some v => Fin (INR v) | None => NaN end) -> num_rows N C F xs t = rows_are N C F xs t'.
Proof.
  intros W Es G. unfold num_rows, rows_are.
  assert (FE: forall (f g : nat -> bool) n, (forall i, (i < n)%nat -> f i = g i) -> forallb f (seq 0 n) = forallb g (seq 0 n)).
  { intros f g n H. assert (K: forall s, (forall i, (s <= i < s + n)%nat -> f i = g i) -> forallb f (seq s n) = forallb g (seq s n)).
    { clear H. induction n as [|n IH]; intros s H; cbn [seq forallb]; auto. rewrite H by lia. f_equal. apply IH. intros i Hi. apply H. lia. }
    apply K. intros i Hi. apply H. lia. }
  apply FE. intros n Hn. apply FE. intros c Hc. apply FE. intros f Hf. unfold entry. rewrite Es.
  destruct (ix_ravel (shape t') N C F n c f W Hn Hc Hf) as (I & _). rewrite G by (rewrite Es; exact I).
  destruct (get t' (ix (shape t') n c f)) as [v|]; cbn [is_nat]; auto.
  destruct (Req_EM_T (INR v) (INR (xs n c f))) as [e|e]; destruct (Nat.eqb_spec v (xs n c f)) as [e'|e']; try (apply INR_eq in e); congruence.
Qed.
Lemma discrete_draws g o (E : einet nat) B : accepted g o E -> discrete_leaf B (leafE E) ->
  leaf_expectation (EL_discrete B (leaf_draw (leafE E))) /\ forall key f b, (forall v, Rabs (f v) <= b) -> Rabs (EL_discrete B (leaf_draw (leafE E)) key f) <= b.
Proof.
  intros HA HB. pose proof (accepted_ok g o E HA) as HE. split; [apply (EL_ok E HE B HB)|]. intros key f b Hf. unfold EL_discrete.
  assert (Hn: forall v, 0 <= leaf_draw (leafE E) key v).
  { intros v. unfold leaf_draw. destruct (in_range _ _); [unfold pval; destruct (lf_logp _ _ _); try lra; left; apply exp_pos|]. destruct (v =? 0)%nat; lra. }
  apply Rle_trans with (rsum B (fun v => leaf_draw (leafE E) key v * b)).
  - clear - Hf Hn. induction B as [|B IH]; [rewrite !rsum_0, Rabs_R0; lra|]. rewrite !rsum_S. eapply Rle_trans; [apply Rabs_triang|]. apply Rplus_le_compat; auto.
    rewrite Rabs_mult, (Rabs_right (leaf_draw _ _ _)) by (apply Rle_ge; auto). apply Rmult_le_compat_l; auto.
  - rewrite rsum_scal_r, (leaf_draw_sum E HE B HB). lra.
Qed.
Lemma indicator_le (b : bool) : Rabs (if b then 1 else 0) <= 1.
Proof. destruct b; rewrite ?Rabs_R1, ?Rabs_R0; lra. Qed.

(** Samples of a single-class network: the probability of the rows [xs], over uniform numbers and leaf draws, is the product of the likelihoods up to the bias. *)
Theorem C57_free_samples_partial : forall g o (E : einet nat) B N xs,
  accepted g o E -> consistent g -> discrete_leaf B (leafE E) -> lf_ctx (leafE E) = true -> e_K E = 1%nat -> (0 < N)%nat ->
  (forall n c f, (n < N)%nat -> (c < e_C E)%nat -> (f < e_F E)%nat -> (xs n c f < B)%nat) ->
  exists m, mean (uniforms N (net_choices E)) (fun u =>
      Pr B (leafE E) (dsample INR (fun i idx => u (i :: idx)) E (mkArgs (Some N) CNone None false false 1 None)) (num_rows N (e_C E) (e_F E) xs)) m /\
    Rabs (m - rprod N (fun n => lik E (one_row (e_C E) (e_F E) (xs n)) None 0 0)) <= bias E N.
Proof.
  intros g o E B N xs HA Hco HB Hctx HK HN Hxs. rewrite <- (C07_free_samples_partial g o E B N xs HA Hco HB Hctx HK HN Hxs). rewrite <- (Rmult_1_r (bias E N)).
  destruct (discrete_draws g o E B HA HB) as [L1 L2]. apply (C57_sample_law nat INR g o E N false 1); auto; try lra; try discriminate.
  - intros t. apply indicator_le.
  - intros t t' Es G W. rewrite (num_rows_same _ _ _ xs t t' W Es G). reflexivity.
Qed.
Print Assumptions C57_free_samples_partial.
(** Conditional samples given evidence. *)
Theorem C57_conditional_partial : forall g o (E : einet nat) B N e ms xs,
  accepted g o E -> consistent g -> discrete_leaf B (leafE E) -> lf_ctx (leafE E) = true -> e_K E = 1%nat -> evidence E N e ms -> (0 < N)%nat ->
  (forall n c f, (n < N)%nat -> (c < e_C E)%nat -> (f < e_F E)%nat -> (xs n c f < B)%nat) ->
  (forall n c f v, (n < N)%nat -> (c < e_C E)%nat -> (f < e_F E)%nat -> observed e ms n c f = Some v -> xs n c f = v) ->
  exists m, mean (uniforms N (net_choices E)) (fun u =>
      Pr B (leafE E) (dsample INR (fun i idx => u (i :: idx)) E (mkArgs None CNone (Some e) false false 1 ms)) (num_rows N (e_C E) (e_F E) xs)) m /\
    Rabs (m - rprod N (fun n => lik E (one_row (e_C E) (e_F E) (xs n)) None 0 0 / lik E e ms n 0)) <= bias E N.
Proof.
  intros g o E B N e ms xs HA Hco HB Hctx HK He HN Hxs Hobs. rewrite <- (C09_conditional_partial g o E B N e ms xs HA Hco HB Hctx HK He HN Hxs Hobs). rewrite <- (Rmult_1_r (bias E N)).
  destruct (discrete_draws g o E B HA HB) as [L1 L2]. apply (C57_evidence_law nat INR g o E N e ms false 1); auto; try lra; try discriminate.
  - intros t. apply indicator_le.
  - intros t t' Es G W. rewrite (num_rows_same _ _ _ xs t t' W Es G). reflexivity.
Qed.
Print Assumptions C57_conditional_partial.

(** The mean is determined: two values that satisfy [mean] are equal. *)
Theorem C57_mean_unique : forall V (E : einet V) N h v w, mean (uniforms N (net_choices E)) h v -> mean (uniforms N (net_choices E)) h w -> v = w.
Proof. intros V E N h v w. apply mean_unique. apply nodup_uniforms, net_tags. Qed.
Print Assumptions C57_mean_unique.

(** Two conditional samples from a network with two repetitions over five binary features. *)
Example C57_ex : exists g o (E : einet nat), accepted g o E /\ e_F E = 5%nat /\ e_R E = 2%nat /\ In (1, 1, 2)%nat (net_choices E) /\
  exists m, mean (uniforms 2 (net_choices E)) (fun u =>
      Pr 2 (leafE E) (dsample INR (fun i idx => u (i :: idx)) E (mkArgs None CNone (Some (two_rows 1 5 ex_ev)) false false 1 None)) (num_rows 2 1 5 alternating)) m /\
    Rabs (m - rprod 2 (fun n => lik E (one_row 1 5 (alternating n)) None 0 0 / lik E (two_rows 1 5 ex_ev) None n 0)) <= bias E 2.
Proof.
  destruct ex_bu as (E & A & HF & HC & HR & HK & D & X & _). exists ex_bu_g, ex_bu_o, E. repeat (split; [assumption|]). split.
  - unfold net_choices. rewrite HR, HK. cbn [Nat.ltb Nat.leb app]. left. reflexivity.
  - pose proof (C57_conditional_partial _ _ E 2 2 (two_rows 1 5 ex_ev) None alternating A bu_consistent D X HK) as H. rewrite HF, HC in H. apply H; try lia.
    + split; [|exact I]. apply two_rows_batch; auto; [intros u; apply (dl_supp 2 _ D)|exact ex_ev_lt].
    + intros; apply alternating_lt.
    + intros n c f v Hn Hc Hf Hv. apply ex_ev_some. exact Hv.
Qed.
(** Unconditional samples from a network with three classes, which the first call of torch.rand chooses. *)
Example C57_law_ex : exists g o (E : einet nat), accepted g o E /\ e_K E = 3%nat /\ In (0, 1, 3)%nat (net_choices E) /\
  exists m, mean (uniforms 2 (net_choices E)) (fun u =>
      Pr 2 (leafE E) (dsample INR (fun i idx => u (i :: idx)) E (mkArgs (Some 2%nat) CNone None false false 1 None)) (num_rows 2 2 5 (fun _ _ _ => 1%nat))) m /\
    Rabs (m - Pr 2 (leafE E) (sample E (mkArgs (Some 2%nat) CNone None false false 1 None)) (rows_are 2 2 5 (fun _ _ _ => 1%nat))) <= bias E 2.
Proof.
  destruct ex_td as (E & A & HF & HC & HR & HK & D & X & _). exists ex_td_g, ex_td_o, E. repeat (split; [assumption|]). split.
  - unfold net_choices. rewrite HK. cbn [Nat.ltb Nat.leb app]. left. reflexivity.
  - destruct (discrete_draws _ _ E 2 A D) as [L1 L2]. rewrite <- (Rmult_1_r (bias E 2)). apply (C57_sample_law nat INR ex_td_g ex_td_o E 2 false 1); auto; try lra; try lia; try discriminate.
    + intros t. apply indicator_le.
    + intros t t' Es G W. rewrite HF, HC in W. rewrite (num_rows_same _ _ _ _ t t' W Es G). reflexivity.
Qed.
