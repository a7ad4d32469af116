(** C67: the forward pass in floating-point arithmetic returns the log-likelihood up to a first-order error. *)
From Coq Require Import List Arith Lia Bool Reals Lra Psatz.
Import ListNotations.
From Verif Require Import Base RSum Num Tensor Prob Layers Circuit Net RefFwd Leaf RefLeaf Einet RefNet RefEinet RefEinetS Build RefBuild Spec RefSpec Float RefFloat RefFloatNet RefFloatLin Ex.
Local Open Scope R_scope.

(** The results of the leaf distribution for a data point [z]: within [delta] of the exact log-probabilities, which are at most
    [Bq] in magnitude, and of zero at the missing entries. *)
Definition leaf_within {V} (E : einet V) (z : nat -> nat -> option V) (Bq delta : R) (qh : nat -> nat -> nat -> nat -> R) : Prop :=
  forall c f l r, (c < e_C E)%nat -> (f < e_F E)%nat -> (l < e_L E)%nat -> (r < e_R E)%nat ->
  match z c f with
  | Some v => Rabs (toR (lf_logp (leafE E) [c; f; l; r] v)) <= Bq /\ Rabs (qh c f l r - toR (lf_logp (leafE E) [c; f; l; r] v)) <= delta
  | None => Rabs (qh c f l r) <= delta
  end.
Lemma leaf_within_q {V} (E : einet V) x ms n Bq delta qh : 0 <= Bq -> leaf_within E (observed x ms n) Bq delta qh ->
  forall c f l r, (c < e_C E)%nat -> (f < e_F E)%nat -> (l < e_L E)%nat -> (r < e_R E)%nat ->
  let q := lval (pdf (leafE E)) (row x ms n) c f l r in 0 < q /\ Rabs (ln q) <= Bq /\ Rabs (qh c f l r - ln q) <= delta.
Proof.
  intros HB H c f l r Hc Hf Hl Hr q. specialize (H c f l r Hc Hf Hl Hr). unfold q, lval.
  replace (row x ms n c f) with (observed x ms n c f) by (unfold row, observed, in_ms; destruct ms; reflexivity).
  destruct (observed x ms n c f) as [v|].
  - unfold pdf. rewrite ln_exp. split; [apply exp_pos|exact H].
  - rewrite ln_1, Rminus_0_r, Rabs_R0. split; [lra|]. split; auto.
Qed.
Lemma evidence_input {V} (E : einet V) N x ms : evidence E N x ms -> input_ok E N x ms.
Proof. intros [H1 H2]. destruct ms; [apply batch_input_ms|apply batch_input]; auto. Qed.

(** In any arithmetic whose operations have the given accuracy, the result for a row is within [net_e] of the exact
    log-likelihood.  ([flog] is arbitrary where the logarithm does not exist, so no logarithm of a vanished sum is taken.) *)
Theorem C67_error : forall A Lam u eta uw g, accurate A Lam u eta uw g -> 0 <= u <= 1 -> 0 <= eta -> (forall n, 0 <= uw n) -> (forall n, 0 <= g n) ->
  forall V cfg o (E : einet V), accepted cfg o E -> einet_logits Lam E ->
  forall N x ms n k qh Bq delta, evidence E N x ms -> (n < N)%nat -> (k < e_K E)%nat -> 0 <= Bq ->
  leaf_within E (observed x ms n) Bq delta qh -> net_safe Lam u eta uw g E Bq delta ->
  Rabs (fforward A E qh k - ln (lik E x ms n k)) <= net_e Lam u eta uw g E Bq delta.
Proof.
  intros A Lam u eta uw g HA Hu Heta Huw Hg V cfg o E Hac HL N x ms n k qh Bq delta Hx Hn Hk HB Hq Hs.
  pose proof (accepted_ok _ _ _ Hac) as HE. rewrite (lik_eval E HE N x ms n k (evidence_input E N x ms Hx) Hn Hk).
  apply (fforward_err A Lam u eta uw g); auto. apply leaf_within_q; auto.
Qed.
Print Assumptions C67_error.

(** For every network the error is of first order in the precision [t] of the arithmetic, uniformly over the data, the missing
    entries and the order of the summations. *)
Theorem C67_first_order : forall V cfg o (E : einet V), accepted cfg o E -> forall Lam, einet_logits Lam E -> forall c Bq, 0 <= c -> 0 <= Bq ->
  exists K t0, 0 < t0 /\ forall A t, 0 <= t <= t0 -> accurate A Lam t t (fun n => c * INR n * t) (fun n => c * INR n * t) ->
  forall N x ms n k qh, evidence E N x ms -> (n < N)%nat -> (k < e_K E)%nat -> leaf_within E (observed x ms n) Bq (c * t) qh ->
  Rabs (fforward A E qh k - ln (lik E x ms n k)) <= K * t.
Proof.
  intros V cfg o E Hac Lam HL c Bq Hc HB. destruct (net_first_order Lam c E Bq) as [(K & HK & H1) H2].
  destruct (ev_and _ _ (ev_and _ _ H1 H2) (ev_le 1 ltac:(lra))) as (t0 & Ht0 & H). exists K, t0. split; auto.
  intros A t Ht HA N x ms n k qh Hx Hn Hk Hq. destruct (H t Ht) as [[B1 B2] B3].
  assert (G: forall n, 0 <= c * INR n * t) by (intros m; apply Rmult_le_pos; [apply Rmult_le_pos; [auto|apply pos_INR]|lra]).
  eapply Rle_trans; [apply (C67_error A Lam t t _ _ HA ltac:(lra) ltac:(lra) G G V cfg o E Hac HL N x ms n k qh Bq (c * t)); auto|].
  eapply Rle_trans; [apply Rle_abs|exact B1].
Qed.
Print Assumptions C67_first_order.

(** Every network has such a bound on its logits. *)
Lemma finite_bound s : forall f : list nat -> R, exists M, forall idx, inb s idx -> Rabs (f idx) <= M.
Proof.
  induction s as [|d s IH]; intros f.
  - exists (Rabs (f [])). intros [|i idx]; [lra|intros []].
  - assert (B: forall m, exists M, forall i idx, (i < m)%nat -> inb s idx -> Rabs (f (i :: idx)) <= M).
    { induction m as [|m [M HM]]; [exists 0; intros; lia|]. destruct (IH (fun idx => f (m :: idx))) as [M' HM']. exists (Rmax M M'). intros i idx Hi Hx.
      destruct (Nat.eq_dec i m) as [->|]; [eapply Rle_trans; [apply HM'; auto|apply Rmax_r]|eapply Rle_trans; [apply HM; auto; lia|apply Rmax_l]]. }
    destruct (B d) as [M HM]. exists M. intros [|i idx]; [intros []|]. intros [H1 H2]. apply HM; auto.
Qed.
Lemma logits_bound lg s : exists M, logits_in M lg s.
Proof. apply (finite_bound s (lgR lg)). Qed.
Lemma logits_mono M M' lg s : M <= M' -> logits_in M lg s -> logits_in M' lg s.
Proof. intros H H1 idx Hi. eapply Rle_trans; [apply H1; auto|auto]. Qed.
Lemma layer_mono M M' l : M <= M' -> layer_logits M l -> layer_logits M' l.
Proof. intros H. destruct l; cbn [layer_logits]; auto; apply logits_mono; auto. Qed.
Lemma layers_bound ls : exists M, Forall (layer_logits M) ls.
Proof.
  induction ls as [|l ls [M HM]]; [exists 0; constructor|].
  assert (B: exists M', layer_logits M' l) by (destruct l; cbn [layer_logits]; try apply logits_bound; exists 0; auto). destruct B as [M' HM'].
  exists (Rmax M M'). constructor; [eapply layer_mono; [apply Rmax_r|auto]|]. eapply Forall_impl; [|exact HM]. intros a. apply layer_mono. apply Rmax_l.
Qed.
Theorem C67_logits : forall V (E : einet V), exists Lam, einet_logits Lam E.
Proof.
  intros V E. destruct (layers_bound (e_layers E)) as [M HM]. assert (B: exists M', match e_mixing E with Some m => logits_in M' (logits m) (mixing_weight_shape m) | None => True end).
  { destruct (e_mixing E); [apply logits_bound|exists 0; auto]. } destruct B as [M' HM']. exists (Rmax M M'). split.
  - eapply Forall_impl; [|exact HM]. intros a. apply layer_mono. apply Rmax_l.
  - destruct (e_mixing E); auto. eapply logits_mono; [apply Rmax_r|auto].
Qed.
Print Assumptions C67_logits.

(** Without rounding the entry-level program is the forward pass of Einet.v. *)
Theorem C67_exact : forall A, (forall Lam, accurate A Lam 0 0 (fun _ => 0) (fun _ => 0)) -> forall V cfg o (E : einet V), accepted cfg o E ->
  forall N x ms n k, evidence E N x ms -> (n < N)%nat -> (k < e_K E)%nat ->
  exists y, forward E x ms = Ok y /\
  get y [n; k] = Fin (fforward A E (fun c f l r => match observed x ms n c f with Some v => toR (lf_logp (leafE E) [c; f; l; r] v) | None => 0 end) k).
Proof.
  intros A HA V cfg o E Hac N x ms n k Hx Hn Hk. set (qh := fun c f l r => _). destruct (C67_logits V E) as [Lam HL].
  pose proof (accepted_ok _ _ _ Hac) as HE. pose proof (evidence_input E N x ms Hx) as Hi.
  destruct (forward_rep E HE N x ms Hi) as (y & Ey & _ & Gy). exists y. split; auto. rewrite Gy by auto. f_equal.
  set (q := lval (pdf (leafE E)) (row x ms n)).
  assert (B: exists Bq, forall idx, inb [e_C E; e_F E; e_L E; e_R E] idx -> Rabs (match idx with [c; f; l; r] => ln (q c f l r) | _ => 0 end) <= Bq) by apply finite_bound.
  destruct B as [Bq HB].
  destruct (net_first_order Lam 0 E (Rmax 0 Bq)) as [(K & HK & t1 & Ht1 & H1) (t2 & Ht2 & H2)].
  specialize (H1 0 ltac:(lra)). specialize (H2 0 ltac:(lra)). cbv beta in H1, H2. rewrite !Rmult_0_r in H1. rewrite !Rmult_0_r in H2.
  assert (Z: (fun n => gl 0 n 0) = (fun _ : nat => 0)) by (apply FunctionalExtensionality.functional_extensionality; intros m; unfold gl; ring). rewrite Z in H1, H2.
  assert (Q: Rabs (fforward A E qh k - ln (neteval (fnet E) q k)) <= net_e Lam 0 0 (fun _ => 0) (fun _ => 0) E (Rmax 0 Bq) 0).
  { apply (fforward_err A Lam 0 0 _ _ (HA Lam)); auto; try (intros; lra). intros c f l r Hc Hf Hl Hr. apply (leaf_within_q E x ms n (Rmax 0 Bq) 0 qh); auto; [apply Rmax_l|].
    intros c' f' l' r' Hc' Hf' Hl' Hr'. specialize (HB [c'; f'; l'; r'] ltac:(cbn [inb]; repeat split; auto)). cbv beta iota in HB. unfold q, lval in HB. unfold qh.
    replace (row x ms n c' f') with (observed x ms n c' f') in HB by (unfold row, observed, in_ms; destruct ms; reflexivity).
    destruct (observed x ms n c' f') as [v|]; [|rewrite Rabs_R0; lra]. unfold pdf in HB. rewrite ln_exp in HB. rewrite Rminus_eq_0, Rabs_R0. split; [|lra]. eapply Rle_trans; [exact HB|apply Rmax_r]. }
  apply Rabs_le_iff in H1. apply Rabs_le_iff in Q. change (ln (neteval (fnet E) q k) = fforward A E qh k). lra.
Qed.
Print Assumptions C67_exact.

(** * A network and an arithmetic that meet the hypotheses *)
(** Relative errors [u] everywhere; exponentials below [eta] vanish. *)
Definition ex_arith (u eta : R) : arith := mkArith
  (fun a b => (a + b) * (1 + u)) (fun a b => (a - b) * (1 - u)) (fun a b => if Rlt_dec (Rabs (a * b)) eta then 0 else a * b * (1 - u))
  (fun x => if Rlt_dec (exp x) eta then 0 else exp x * (1 + u)) (fun x => if Rlt_dec 0 x then ln x * (1 - u) else -1000)
  (fun n f => rsum n f * (1 + u)) (fun n f k => rsoftmax n f k * (1 - u)) (fun n f k => ln (rsoftmax n f k) + u).
Lemma abs_rel a u : 0 <= u -> Rabs (a * (1 + u) - a) <= u * Rabs a.
Proof. intros H. replace (a * (1 + u) - a) with (u * a) by ring. rewrite Rabs_mult, (Rabs_pos_eq u) by auto. lra. Qed.
Lemma abs_rel_m a u : 0 <= u -> Rabs (a * (1 - u) - a) <= u * Rabs a.
Proof. intros H. replace (a * (1 - u) - a) with (- (u * a)) by ring. rewrite Rabs_Ropp, Rabs_mult, (Rabs_pos_eq u) by auto. lra. Qed.
Lemma ex_arith_accurate Lam c t : 1 <= c -> 0 <= t -> accurate (ex_arith t t) Lam t t (fun n => c * INR n * t) (fun n => c * INR n * t).
Proof.
  intros Hc Ht. assert (G: forall n, (0 < n)%nat -> t <= c * INR n * t).
  { intros n Hn. rewrite <- (Rmult_1_l t) at 1. apply Rmult_le_compat_r; auto. assert (1 <= INR n) by (apply (le_INR 1); auto). nra. }
  assert (P: forall x, Rabs (exp x) = exp x) by (intros x; apply Rabs_pos_eq; left; apply exp_pos).
  split; cbn [ex_arith fadd fsub fmul fexp flog fsum fsoftmax flogsoftmax].
  - intros; apply abs_rel; auto.
  - intros; apply abs_rel_m; auto.
  - intros a b. destruct (Rlt_dec _ _) as [H|H]; [rewrite Rminus_0_l, Rabs_Ropp; assert (0 <= t * Rabs (a * b)) by (apply Rmult_le_pos; [auto|apply Rabs_pos]); lra|pose proof (abs_rel_m (a * b) t Ht); lra].
  - intros x _. destruct (Rlt_dec _ _) as [H|H].
    + rewrite Rminus_0_l, Rabs_Ropp, P. pose proof (exp_pos x). assert (0 <= t * exp x) by (apply Rmult_le_pos; lra). lra.
    + pose proof (abs_rel (exp x) t Ht) as Q. rewrite P in Q. lra.
  - intros x Hx. destruct (Rlt_dec 0 x); [|contradiction]. apply abs_rel_m; auto.
  - intros n f. destruct n as [|n]; [rewrite !rsum_0, Rmult_0_l, Rminus_0_r, Rabs_R0; lra|].
    eapply Rle_trans; [apply abs_rel; auto|]. apply Rmult_le_compat; auto; [apply Rabs_pos|apply G; lia|].
    generalize (S n). intros m. induction m; [rewrite !rsum_0, Rabs_R0; lra|]. rewrite !rsum_S. eapply Rle_trans; [apply Rabs_triang|lra].
  - intros n f k Hk _. eapply Rle_trans; [apply abs_rel_m; auto|]. rewrite Rabs_pos_eq by (left; apply rsoftmax_pos; lia).
    assert (0 < rsoftmax n f k) by (apply rsoftmax_pos; lia). assert (t * rsoftmax n f k <= c * INR n * t * rsoftmax n f k) by (apply Rmult_le_compat_r; [lra|apply G; lia]). lra.
  - intros n f k Hk _. replace (ln (rsoftmax n f k) + t - ln (rsoftmax n f k)) with t by ring. rewrite Rabs_pos_eq by auto. apply G; lia.
Qed.
Example C67_ex : exists E, accepted ex_td_g ex_td_o E /\ (1 < e_R E)%nat /\ (1 < e_K E)%nat /\
  exists Lam, einet_logits Lam E /\ exists K t0, 0 < t0 /\ forall t, 0 <= t <= t0 ->
  forall N x n k, batch E N x -> (n < N)%nat -> (k < e_K E)%nat ->
  Rabs (fforward (ex_arith t t) E (fun c f l r => match entry x n c f with Some v => toR (lf_logp (leafE E) [c; f; l; r] v) | None => 0 end) k - ln (lik E x None n k)) <= K * t.
Proof.
  destruct ex_td as (E & Hac & EF & EC & ER & EK & HD & _ & EL). exists E. split; auto. split; [lia|]. split; [lia|].
  destruct (C67_logits _ E) as [Lam HL]. exists Lam. split; auto.
  destruct (finite_bound [e_C E; e_F E; e_L E; e_R E; 2]%nat (fun idx => match idx with [c; f; l; r; v] => toR (lf_logp (leafE E) [c; f; l; r] v) | _ => 0 end)) as [Bq HB].
  destruct (C67_first_order _ _ _ E Hac Lam HL 1 (Rmax 0 Bq) ltac:(lra) (Rmax_l _ _)) as (K & t0 & Ht0 & H). exists K, t0. split; auto.
  intros t Ht N x n k Hx Hn Hk. apply (H (ex_arith t t) t Ht (ex_arith_accurate Lam 1 t ltac:(lra) ltac:(lra)) N x None n k); auto; [split; auto|].
  intros c f l r Hc Hf Hl Hr. cbn [observed]. destruct (entry x n c f) as [v|] eqn:Ev; [|rewrite Rabs_R0; lra]. rewrite Rminus_eq_0, Rabs_R0. split; [|lra].
  destruct Hx as [_ Hx]. specialize (Hx n c f v Hn Hc Hf Ev). rewrite (dl_supp _ _ HD) in Hx. apply Nat.ltb_lt in Hx.
  eapply Rle_trans; [apply (HB [c; f; l; r; v]); cbn [inb]; repeat split; auto|apply Rmax_r].
Qed.
Example C67_exact_ex : forall Lam, accurate (ex_arith 0 0) Lam 0 0 (fun _ => 0) (fun _ => 0).
Proof.
  intros Lam. pose proof (ex_arith_accurate Lam 1 0 ltac:(lra) ltac:(lra)) as H.
  replace (fun n => 1 * INR n * 0) with (fun _ : nat => 0) in H by (apply FunctionalExtensionality.functional_extensionality; intros; ring). exact H.
Qed.
