(** Sampling as a probability distribution on data points. *)
From Coq Require Import List Arith Lia Bool Reals Lra.
Import ListNotations.
From Verif Require Import Base RSum Num Tensor Prob Layers Circuit Net RefFwd RefSample RefLaw Leaf Perm RefLeaf RefLeafS Einet RefNet RefEinet RefEinetS Build RefBuild Spec RefSpec.
Local Open Scope R_scope.
Local Arguments Nat.div : simpl never.
Local Arguments Nat.modulo : simpl never.
Local Arguments Nat.sub : simpl never.
Local Arguments Nat.mul : simpl never.
Local Arguments Nat.add : simpl never.

Lemma forallb_rprod n (b : nat -> bool) : (if forallb b (seq 0 n) then 1 else 0) = rprod n (fun i => if b i then 1 else 0).
Proof.
  induction n; [reflexivity|]. rewrite rprod_S, <- IHn, seq_S_app, forallb_app. cbn [forallb Nat.add].
  change (0 + n)%nat with n. destruct (forallb b (seq 0 n)), (b n); cbn [andb]; lra.
Qed.
Definition eqv (o : option nat) (v : nat) : R := match o with Some w => if (w =? v)%nat then 1 else 0 | None => 0 end.
Lemma rows_are_rprod N C F xs t : (if rows_are N C F xs t then 1 else 0) = rprod3 N C F (fun n c f => eqv (entry t n c f) (xs n c f)).
Proof.
  unfold rows_are, rprod3. rewrite forallb_rprod. apply rprod_ext. intros n _. rewrite forallb_rprod. apply rprod_ext. intros c _.
  rewrite forallb_rprod. apply rprod_ext. intros f _. unfold eqv. destruct (entry t n c f); auto.
Qed.

(** A leaf entry that is zero for every component makes the network zero. *)
Lemma neteval_zero G q c0 f0 y : cnet_wf G -> (y < nCls G)%nat -> (c0 < nC G)%nat -> (f0 < nF G)%nat ->
  (forall c f l r, (c < nC G)%nat -> (f < nF G)%nat -> (l < nL G)%nat -> (r < nR G)%nat -> 0 <= q c f l r) ->
  (forall l r, (l < nL G)%nat -> (r < nR G)%nat -> q c0 f0 l r = 0) -> neteval G q y = 0.
Proof.
  intros Hw Hy Hc Hf Hq Hz. destruct (neteval_linear G q c0 f0 y Hw Hy Hc Hf Hq) as (al & _ & H).
  transitivity (neteval G (updq q c0 f0 (q c0 f0)) y).
  - apply neteval_ext; auto. intros c f l r _ _ _ _. unfold updq. destruct (Nat.eqb_spec c c0), (Nat.eqb_spec f f0); cbn [andb]; subst; auto.
  - rewrite H. rewrite (rsum_ext _ _ (fun _ => 0)); [apply rsum_zero|]. intros r Hr.
    rewrite (rsum_ext _ _ (fun _ => 0)); [apply rsum_zero|]. intros l Hl. rewrite Hz by auto. ring.
Qed.

Section Pr.
Variable E : einet nat.
Hypothesis HE : einet_ok E.
Variable B : nat.
Hypothesis HB : discrete_leaf B (leafE E).
Hypothesis Hctx : lf_ctx (leafE E) = true.
Let lf := leafE E.
Let EL := EL_discrete B (leaf_draw lf).

Lemma in_range_iff c f l r : in_range lf [c; f; l; r] = true <-> (c < e_C E)%nat /\ (f < e_F E)%nat /\ (l < e_L E)%nat /\ (r < e_R E)%nat.
Proof.
  unfold in_range, lf, leafE. rewrite (eo_lC E HE), (eo_lF E HE), (eo_lL E HE), (eo_lR E HE).
  rewrite !andb_true_iff, !Nat.ltb_lt. tauto.
Qed.
Lemma B_pos : (0 < B)%nat.
Proof.
  destruct B as [|b] eqn:EB; [|lia]. exfalso.
  pose proof (pdf_sum E HE B) as P. rewrite EB in P. specialize (P HB 0%nat 0%nat 0%nat 0%nat (eo_C E HE) (eo_F E HE) (eo_L E HE) (eo_R E HE)).
  rewrite rsum_0 in P. lra.
Qed.
Lemma leaf_draw_in c f l r v : (c < e_C E)%nat -> (f < e_F E)%nat -> (l < e_L E)%nat -> (r < e_R E)%nat -> (v < B)%nat ->
  leaf_draw lf [c; f; l; r] v = pdf lf c f l r v.
Proof.
  intros. unfold leaf_draw. rewrite (proj2 (in_range_iff c f l r)) by auto. apply (pval_pdf E HE B HB); auto.
Qed.
Lemma leaf_draw_sum key : rsum B (leaf_draw lf key) = 1.
Proof.
  destruct (in_range lf key) eqn:Er.
  - assert (exists c f l r, key = [c; f; l; r]) as (c & f & l & r & ->).
    { destruct key as [|c [|f [|l [|r [|]]]]]; try discriminate. eauto 6. }
    apply in_range_iff in Er as (H1 & H2 & H3 & H4). rewrite <- (pdf_sum E HE B HB c f l r) by auto. apply rsum_ext. intros v Hv.
    apply leaf_draw_in; auto.
  - rewrite (rsum_ext _ _ (fun v => if (v =? 0)%nat then 1 else 0)).
    + rewrite (rsum_single B 0%nat); auto; [exact B_pos|]. intros v _ Hv. destruct (Nat.eqb_spec v 0); [congruence|auto].
    + intros v _. unfold leaf_draw. rewrite Er. auto.
Qed.
Lemma EL_ok : leaf_expectation EL.
Proof. apply EL_discrete_ok. apply leaf_draw_sum. Qed.
Lemma EL_point c f l r x : (c < e_C E)%nat -> (f < e_F E)%nat -> (l < e_L E)%nat -> (r < e_R E)%nat -> (x < B)%nat ->
  EL [c; f; l; r] (fun v => eqv (Some v) x) = pdf lf c f l r x.
Proof.
  intros Hc Hf Hl Hr Hx. unfold EL, EL_discrete. rewrite (rsum_single B x); auto.
  - unfold eqv. rewrite Nat.eqb_refl, Rmult_1_r. apply leaf_draw_in; auto.
  - intros v _ Hv. unfold eqv. destruct (Nat.eqb_spec v x); [congruence|ring].
Qed.
Lemma one_row_batch x : (forall c f, (c < e_C E)%nat -> (f < e_F E)%nat -> (x c f < B)%nat) -> batch E 1 (one_row (e_C E) (e_F E) x).
Proof.
  intros H. split; [right; left; reflexivity|]. intros n c f v Hn Hc Hf Hv. cbn in Hv. inversion Hv; subst v.
  rewrite (dl_supp B _ HB). apply Nat.ltb_lt. auto.
Qed.
Lemma lik_one_row x k : (forall c f, (c < e_C E)%nat -> (f < e_F E)%nat -> (x c f < B)%nat) -> (k < e_K E)%nat ->
  lik E (one_row (e_C E) (e_F E) x) None 0 k = neteval (fnet E) (lval (pdf lf) (fun c f => Some (x c f))) k.
Proof.
  intros H Hk. rewrite (lik_eval E HE 1) by (auto; apply batch_input, one_row_batch; auto). reflexivity.
Qed.
Lemma snet_fnet q k : groups_agree E -> (k < e_K E)%nat -> neteval (snet E 1) q k = neteval (fnet E) q k.
Proof.
  intros Hg Hk. unfold neteval. cbn [snet fnet net_with nR nmix nls]. apply rsum_ext. intros r Hr. f_equal.
  apply (evals_ext (e_R E) _ (leaf_out E) (e_L E) 1 (e_K E)); auto.
  - apply layers_chain. apply (eo_layers E HE).
  - intros d l r' Hd Hl Hr'. unfold leafval. cbn [snet fnet net_with nF nC ngroup]. apply rprod_ext. intros f Hf. rewrite Hg by auto. auto.
Qed.

(** The law of free sampling, in terms of the circuit that the sampling code walks. *)
Theorem sample_rows_snet a : check_args E a = Ok tt -> class_ok E a -> a_ev a = None -> (0 < num_samples a)%nat ->
  a_mpe a = false -> a_mpel a = false -> a_tsum a <> 0 ->
  forall xs, (forall n c f, (n < num_samples a)%nat -> (c < e_C E)%nat -> (f < e_F E)%nat -> (xs n c f < B)%nat) ->
  Pr B lf (sample E a) (rows_are (num_samples a) (e_C E) (e_F E) xs) =
  rprod (num_samples a) (fun n => rsum (e_K E) (fun y => cweight E a n y *
    neteval (snet E (a_tsum a)) (lval (pdf lf) (fun c f => Some (xs n c f))) y)).
Proof.
  intros Hch Hcl Hev HN Hm Hml HT xs Hx.
  destruct (sample_free_law E HE EL EL_ok a Hch Hcl Hev HN Hm Hml HT Hctx) as [O X].
  unfold Pr. fold EL.
  transitivity (expect EL (sample E a) (fun t => rprod3 (num_samples a) (e_C E) (e_F E) (fun n c f => eqv (get t [n; c; f]) (xs n c f)))).
  - apply expect_ext_outcome; [apply EL_ok|]. intros t Ht. destruct (O _ _ Ht) as (t' & Et & St & _). inversion Et; subst t'.
    rewrite rows_are_rprod. apply rprod3_ext. intros n c f _ _ _. unfold entry. rewrite St. reflexivity.
  - rewrite (X (fun n c f v => eqv v (xs n c f))). apply rprod_ext. intros n Hn. apply rsum_ext. intros y Hy. f_equal.
    apply neteval_ext; [apply snet_wf; auto|auto|].
    intros c f l r Hc Hf Hl Hr. unfold elg, lval. apply EL_point; auto.
Qed.
Theorem sample_rows_prob a : check_args E a = Ok tt -> class_ok E a -> a_ev a = None -> (0 < num_samples a)%nat ->
  a_mpe a = false -> a_mpel a = false -> a_tsum a = 1 -> groups_agree E ->
  forall xs, (forall n c f, (n < num_samples a)%nat -> (c < e_C E)%nat -> (f < e_F E)%nat -> (xs n c f < B)%nat) ->
  Pr B lf (sample E a) (rows_are (num_samples a) (e_C E) (e_F E) xs) =
  rprod (num_samples a) (fun n => rsum (e_K E) (fun y => cweight E a n y * lik E (one_row (e_C E) (e_F E) (xs n)) None 0 y)).
Proof.
  intros Hch Hcl Hev HN Hm Hml HT Hg xs Hx. rewrite sample_rows_snet by (auto; rewrite HT; lra).
  apply rprod_ext. intros n Hn. apply rsum_ext. intros y Hy. f_equal. rewrite HT, snet_fnet, lik_one_row by auto. reflexivity.
Qed.

(** The data point [x] agrees with the observed entries of a row. *)
Definition agrees_with (z : nat -> nat -> option nat) (x : nat -> nat -> nat) : bool :=
  forallb (fun c => forallb (fun f => match z c f with None => true | Some v => (v =? x c f)%nat end) (seq 0 (e_F E))) (seq 0 (e_C E)).
Lemma agrees_with_iff z x : agrees_with z x = true <->
  forall c f v, (c < e_C E)%nat -> (f < e_F E)%nat -> z c f = Some v -> v = x c f.
Proof.
  unfold agrees_with. rewrite forallb_forall. split.
  - intros H c f v Hc Hf Hv. specialize (H c). rewrite in_seq in H. specialize (H ltac:(lia)). rewrite forallb_forall in H.
    specialize (H f). rewrite in_seq in H. specialize (H ltac:(lia)). rewrite Hv in H. apply Nat.eqb_eq; auto.
  - intros H c Hc. apply in_seq in Hc. rewrite forallb_forall. intros f Hf. apply in_seq in Hf.
    destruct (z c f) as [v|] eqn:Ez; auto. apply Nat.eqb_eq. apply H; auto; lia.
Qed.
Lemma agrees_with_false z x : agrees_with z x = false -> exists c f v, (c < e_C E)%nat /\ (f < e_F E)%nat /\ z c f = Some v /\ v <> x c f.
Proof.
  unfold agrees_with. intros H.
  assert (F: forall n (b : nat -> bool), forallb b (seq 0 n) = false -> exists i, (i < n)%nat /\ b i = false).
  { clear. intros n b. induction n; [discriminate|]. rewrite seq_S_app, forallb_app. cbn [forallb]. rewrite Nat.add_0_l, andb_true_r.
    intros H. apply andb_false_iff in H as [H|H]; [destruct (IHn H) as (i & Hi & E0); exists i; auto|exists n; auto]. }
  apply F in H as (c & Hc & H). apply F in H as (f & Hf & H). destruct (z c f) as [v|] eqn:Ez; [|discriminate].
  apply Nat.eqb_neq in H. exists c, f, v. auto.
Qed.

Theorem sample_evidence_prob a e : a_ev a = Some e -> check_args E a = Ok tt ->
  input_ok E (num_samples a) e (a_ms a) -> (0 < num_samples a)%nat ->
  a_mpe a = false -> a_mpel a = false -> a_tsum a = 1 -> groups_agree E ->
  forall xs, (forall n c f, (n < num_samples a)%nat -> (c < e_C E)%nat -> (f < e_F E)%nat -> (xs n c f < B)%nat) ->
  Pr B lf (sample E a) (rows_are (num_samples a) (e_C E) (e_F E) xs) =
  rprod (num_samples a) (fun n => rsum (e_K E) (fun y => cweight E a n y *
     (if agrees_with (row e (a_ms a) n) (xs n)
      then lik E (one_row (e_C E) (e_F E) (xs n)) None 0 y / lik E e (a_ms a) n y else 0))).
Proof.
  intros Hev Hch Hin HN Hm Hml HT Hg xs Hx.
  destruct (sample_evidence_law E HE EL EL_ok a e Hev Hch Hin HN Hm Hml HT Hctx) as [O X].
  unfold Pr. fold EL.
  rewrite (expect_ext EL EL_ok _ _ (fun o => rprod3 (num_samples a) (e_C E) (e_F E) (fun n c f => eqv (entry o n c f) (xs n c f)))).
  2:{ intros t. apply rows_are_rprod. }
  rewrite (X Hg (fun n c f v => eqv v (xs n c f))). apply rprod_ext. intros n Hn. apply rsum_ext. intros y Hy. f_equal.
  rewrite (lik_eval E HE (num_samples a) e (a_ms a) n y) by auto. fold lf.
  destruct (agrees_with (row e (a_ms a) n) (xs n)) eqn:Ea.
  - rewrite lik_one_row by auto. unfold Rdiv. f_equal. apply neteval_ext; [apply fnet_wf; auto|auto|].
    intros c f l r Hc Hf Hl Hr. unfold lval. destruct (row e (a_ms a) n c f) as [v|] eqn:Ev.
    + rewrite agrees_with_iff in Ea. rewrite <- (Ea c f v Hc Hf Ev). unfold eqv. rewrite Nat.eqb_refl. fold (leafE E). fold lf. ring.
    + apply EL_point; auto.
  - apply agrees_with_false in Ea as (c0 & f0 & v & Hc0 & Hf0 & Ev & Hne).
    rewrite (neteval_zero _ _ c0 f0); auto.
    + unfold Rdiv. ring.
    + apply fnet_wf; auto.
    + intros c f l r Hc Hf Hl Hr. destruct (row e (a_ms a) n c f) as [w|].
      * apply Rmult_le_pos; [left; apply exp_pos|]. unfold eqv. destruct (_ =? _)%nat; lra.
      * fold (leafE E). rewrite EL_point by auto. left; apply exp_pos.
    + intros l r Hl Hr. rewrite Ev. unfold eqv. destruct (Nat.eqb_spec v (xs n c0 f0)); [contradiction|ring].
Qed.
End Pr.
