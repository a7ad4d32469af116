(** posterior() and monotonicity. *)
From Coq Require Import List Arith Lia Bool Reals Lra.
Import ListNotations.
From Verif Require Import Base RSum Num Tensor Prob Layers Circuit Net RefFwd RefSample Leaf Perm RefLeaf RefLeafS Einet RefNet RefEinet RefEinetS Build RefBuild Spec RefSpec.
Local Open Scope R_scope.
Local Arguments Nat.div : simpl never.
Local Arguments Nat.modulo : simpl never.
Local Arguments Nat.sub : simpl never.
Local Arguments Nat.mul : simpl never.
Local Arguments Nat.add : simpl never.
Local Arguments clamp : simpl never.
Local Arguments bdim : simpl never.

Theorem posterior_of_ok ll N K (l : nat -> nat -> R) : (0 < K)%nat -> shape ll = [N; K] ->
  (forall n k, (n < N)%nat -> (k < K)%nat -> get ll [n; k] = Fin (l n k)) ->
  exists y, posterior_of ll K = Ok y /\ shape y = [N; K] /\
    forall n k, (n < N)%nat -> (k < K)%nat -> get y [n; k] = Fin (ln (exp (l n k) / rsum K (fun j => exp (l n j)))).
Proof.
  intros HK Hs Hl. destruct ll as [s g]. cbn [shape get] in *. subst s.
  unfold posterior_of, bsub, tlogsumexp_keep, reduce_keep, size. unfold tmap. cbn [shape get set_nth nth].
  bcast. eexists. split; [reflexivity|]. split; [reflexivity|].
  assert (HI: 0 < 1 / INR K) by (apply Rdiv_lt_0_compat; [lra|apply lt_0_INR; auto]).
  intros n k Hn Hk. gets. unfold nlog. 
  destruct (Rlt_dec 0 (1 / INR K)); [|contradiction].
  rewrite (nlogsumexp_fin K _ (fun j => l n j + ln (1 / INR K))); auto.
  2:{ intros j Hj. rewrite Hl by auto. reflexivity. }
  rewrite Hl by auto. unfold nsub. simpl. f_equal.
  assert (PS: 0 < rsum K (fun j => exp (l n j))) by (apply rsum_pos; auto; intros; apply exp_pos).
  rewrite (rsum_ext _ _ (fun j => exp (l n j) * (1 / INR K))).
  2:{ intros j Hj. rewrite exp_plus, exp_ln by auto. auto. }
  rewrite rsum_scal_r, ln_mult by auto. unfold Rdiv at 3. rewrite ln_mult; [|apply exp_pos|apply Rinv_0_lt_compat; auto].
  rewrite ln_exp, ln_Rinv by auto. ring.
Qed.

Lemma ratio_le a b s : 0 < s -> a <= b -> a / s <= b / s.
Proof. intros Hs H. unfold Rdiv. apply Rmult_le_compat_r; auto. left. apply Rinv_0_lt_compat; auto. Qed.

(** Bayes' rule, ranking and invariance, for any matrix of finite class log-likelihoods. *)
Theorem posterior_of_bayes ll N K (l : nat -> nat -> R) : (0 < K)%nat -> shape ll = [N; K] ->
  (forall n k, (n < N)%nat -> (k < K)%nat -> get ll [n; k] = Fin (l n k)) ->
  exists y, posterior_of ll K = Ok y /\ shape y = [N; K] /\
    (forall n k, (n < N)%nat -> (k < K)%nat -> pval (get y [n; k]) = exp (l n k) / rsum K (fun j => exp (l n j)) /\ 0 < pval (get y [n; k])) /\
    (forall n, (n < N)%nat -> rsum K (fun k => pval (get y [n; k])) = 1) /\
    (forall n j k, (n < N)%nat -> (j < K)%nat -> (k < K)%nat -> (pval (get y [n; j]) <= pval (get y [n; k]) <-> l n j <= l n k)).
Proof.
  intros HK Hs Hl. destruct (posterior_of_ok ll N K l HK Hs Hl) as (y & Ey & Sy & Gy). exists y. split; auto. split; auto.
  assert (PS: forall n, 0 < rsum K (fun j => exp (l n j))) by (intros; apply rsum_pos; auto; intros; apply exp_pos).
  assert (P: forall n k, (n < N)%nat -> (k < K)%nat -> pval (get y [n; k]) = exp (l n k) / rsum K (fun j => exp (l n j))).
  { intros n k Hn Hk. rewrite Gy by auto. cbn [pval]. apply exp_ln. apply Rdiv_lt_0_compat; auto. apply exp_pos. }
  split; [|split].
  - intros n k Hn Hk. split; auto. rewrite P by auto. apply Rdiv_lt_0_compat; auto. apply exp_pos.
  - intros n Hn. rewrite (rsum_ext _ _ (fun k => exp (l n k) / rsum K (fun j => exp (l n j)))) by (intros; auto).
    unfold Rdiv. rewrite rsum_scal_r. apply Rinv_r. specialize (PS n). lra.
  - intros n j k Hn Hj Hk. rewrite !P by auto. split.
    + intros H. destruct (Rle_dec (l n j) (l n k)) as [|C]; auto. exfalso. apply Rnot_le_lt in C. apply exp_increasing in C.
      assert (exp (l n k) / rsum K (fun j0 => exp (l n j0)) < exp (l n j) / rsum K (fun j0 => exp (l n j0))); [|lra].
      unfold Rdiv. apply Rmult_lt_compat_r; auto. apply Rinv_0_lt_compat; auto.
    + intros [H| ->]; [|lra]. apply ratio_le; auto. left. apply exp_increasing; auto.
Qed.
(** Adding the same constant to every class log-likelihood of a row changes nothing. *)
Theorem posterior_of_shift ll ll' N K (l : nat -> nat -> R) (c : nat -> R) : (0 < K)%nat -> shape ll = [N; K] -> shape ll' = [N; K] ->
  (forall n k, (n < N)%nat -> (k < K)%nat -> get ll [n; k] = Fin (l n k) /\ get ll' [n; k] = Fin (l n k + c n)) ->
  exists y y', posterior_of ll K = Ok y /\ posterior_of ll' K = Ok y' /\
    forall n k, (n < N)%nat -> (k < K)%nat -> get y [n; k] = get y' [n; k].
Proof.
  intros HK Hs Hs' Hl. destruct (posterior_of_ok ll N K l HK Hs) as (y & Ey & _ & Gy); [intros; apply Hl; auto|].
  destruct (posterior_of_ok ll' N K (fun n k => l n k + c n) HK Hs') as (y' & Ey' & _ & Gy'); [intros; apply Hl; auto|].
  exists y, y'. split; auto. split; auto. intros n k Hn Hk. rewrite Gy, Gy' by auto. do 2 f_equal.
  rewrite (rsum_ext K (fun j => exp (l n j + c n)) (fun j => exp (l n j) * exp (c n))) by (intros; apply exp_plus).
  rewrite rsum_scal_r, exp_plus. 
  assert (PS: 0 < rsum K (fun j => exp (l n j))) by (apply rsum_pos; auto; intros; apply exp_pos).
  pose proof (exp_pos (c n)). field. split; lra.
Qed.

Section Post.
Context {V : Type}.
Variable E : einet V.
Hypothesis HE : einet_ok E.
(** posterior(x) of a network. *)
Theorem posterior_bayes N x : (1 < e_K E)%nat -> input_ok E N x None ->
  exists y, posterior E x = Ok y /\ shape y = [N; e_K E] /\
    forall n k, (n < N)%nat -> (k < e_K E)%nat ->
      pval (get y [n; k]) = lik E x None n k / rsum (e_K E) (fun j => lik E x None n j) /\
      rsum (e_K E) (fun j => pval (get y [n; j])) = 1.
Proof.
  intros HK Hi. destruct (forward_rep E HE N x None Hi) as (ll & El & Sl & Gl).
  unfold posterior. destruct (Nat.ltb_spec 1 (e_K E)); [|lia]. cbn [assert guard bind]. rewrite El. cbn [bind].
  destruct (posterior_of_bayes ll N (e_K E) (fun n k => ln (neteval (fnet E) (lval (pdf (leafE E)) (row x None n)) k))) as (y & Ey & Sy & P & S & _); auto; [lia|].
  exists y. split; auto. split; auto. intros n k Hn Hk. split; [|auto]. destruct (P n k Hn Hk) as [-> _].
  assert (L: forall j, (j < e_K E)%nat -> lik E x None n j = exp (ln (neteval (fnet E) (lval (pdf (leafE E)) (row x None n)) j))).
  { intros j Hj. rewrite (lik_eval E HE N) by auto. symmetry. apply exp_ln. apply neteval_row_pos; auto. }
  rewrite (L k) by auto. unfold Rdiv at 1 2. apply f_equal2; [reflexivity|]. apply (f_equal Rinv). apply (rsum_ext (e_K E)). intros j Hj. symmetry. apply L; auto.
Qed.
End Post.

(** * Monotonicity *)
(** The same network with another leaf. *)
Definition set_leaf {V} (E : einet V) (lf : bleaf V) : einet V :=
  mkE (e_F E) (e_C E) (e_L E) (e_R E) (e_K E)
    (match e_leaf E with
     | LFact _ Fo sc => LFact lf Fo sc
     | LSimple _ Fo p q => LSimple lf Fo p q
     | LBase _ => LBase lf
     end) (e_perm E) (e_layers E) (e_mixing E) (e_root E).
Definition same_sizes {V} (lf lf' : bleaf V) : Prop := lf_C lf' = lf_C lf /\ lf_F lf' = lf_F lf /\ lf_L lf' = lf_L lf /\ lf_R lf' = lf_R lf.
Lemma set_leaf_ok {V} (E : einet V) lf' : einet_ok E -> leaf_ok lf' -> same_sizes (leafE E) lf' -> einet_ok (set_leaf E lf').
Proof.
  intros HE Hl (H1 & H2 & H3 & H4). unfold leafE in *.
  assert (L: leaf_of (e_leaf (set_leaf E lf')) = lf') by (unfold set_leaf; cbn [e_leaf]; destruct (e_leaf E); reflexivity).
  split; rewrite ?L.
  - apply HE. - apply HE. - apply HE. - apply HE. - apply HE. - auto.
  - rewrite H1. apply (eo_lC E HE). - rewrite H2. apply (eo_lF E HE). - rewrite H3. apply (eo_lL E HE). - rewrite H4. apply (eo_lR E HE).
  - pose proof (eo_ll E HE) as H. unfold leaf_layer_ok in *. unfold set_leaf. cbn [e_leaf e_perm e_F e_R]. destruct (e_leaf E); auto.
  - pose proof (eo_layers E HE) as H. unfold leaf_out, set_leaf in *. cbn [e_leaf e_R e_layers e_L e_K e_F]. destruct (e_leaf E); auto.
  - apply (eo_mix E HE). - apply (eo_root E HE).
Qed.
Lemma fnet_set_leaf {V} (E : einet V) lf' q k : neteval (fnet (set_leaf E lf')) q k = neteval (fnet E) q k.
Proof.
  unfold neteval, fnet, net_with, leafval, fgrp, leaf_out, emix. cbn [set_leaf e_F e_C e_L e_R e_K e_leaf e_perm e_layers e_mixing nR nmix nls nF nC ngroup].
  destruct (e_leaf E); reflexivity.
Qed.
Theorem lik_mono_leaf {V} (E : einet V) lf' N x ms n k : einet_ok E -> leaf_ok lf' -> same_sizes (leafE E) lf' ->
  (forall v, lf_supp lf' v = lf_supp (leafE E) v) ->
  (forall c f l r v, (c < e_C E)%nat -> (f < e_F E)%nat -> (l < e_L E)%nat -> (r < e_R E)%nat -> lf_supp (leafE E) v = true ->
     pval (lf_logp (leafE E) [c; f; l; r] v) <= pval (lf_logp lf' [c; f; l; r] v)) ->
  input_ok E N x ms -> (n < N)%nat -> (k < e_K E)%nat ->
  lik E x ms n k <= lik (set_leaf E lf') x ms n k.
Proof.
  intros HE Hl Hs Hsup Hle Hi Hn Hk. pose proof (set_leaf_ok E lf' HE Hl Hs) as HE'.
  assert (L: leafE (set_leaf E lf') = lf') by (unfold leafE, set_leaf; cbn [e_leaf]; destruct (e_leaf E); reflexivity).
  assert (Hi': input_ok (set_leaf E lf') N x ms).
  { destruct Hi as (A & B & C). split; [exact A|]. split; [|exact C]. intros n0 c f v Hn0 Hc Hf Hv.
    fold (leafE (set_leaf E lf')). rewrite L, Hsup. apply (B n0 c f); auto. }
  rewrite (lik_eval E HE N) by auto. rewrite (lik_eval _ HE' N) by auto. rewrite L, fnet_set_leaf.
  apply neteval_mono; [apply fnet_wf; auto|auto|]. intros c f l r Hc Hf Hlx Hr. cbn [fnet net_with nC nF nL nR] in *.
  unfold lval. destruct (row x ms n c f) as [v|] eqn:Ev; [|lra]. split; [left; apply exp_pos|].
  assert (Sv: lf_supp (leafE E) v = true).
  { destruct Hi as (_ & B & _). unfold row in Ev. destruct (in_ms ms f); [discriminate|]. apply (B n c f); auto. }
  specialize (Hle c f l r v Hc Hf Hlx Hr Sv). unfold pdf.
  assert (D: forall lf0 : bleaf V, leaf_ok lf0 -> same_sizes (leafE E) lf0 -> lf_supp lf0 v = true -> pval (lf_logp lf0 [c; f; l; r] v) = exp (toR (lf_logp lf0 [c; f; l; r] v))).
  { intros lf0 [_ H0] (S1 & S2 & S3 & S4) Hv. unfold leafE in *. rewrite (eo_lC E HE) in S1. rewrite (eo_lF E HE) in S2. rewrite (eo_lL E HE) in S3. rewrite (eo_lR E HE) in S4.
    assert (F: isfin (lf_logp lf0 [c; f; l; r] v) = true) by (apply H0; auto; lia). rewrite (isfin_Fin _ F). reflexivity. }
  rewrite <- (D lf'), <- (D (leafE E)); auto; [apply (eo_leaf E HE)|repeat split|rewrite Hsup; auto].
Qed.

Lemma pdf_le_1 (E : einet nat) (HE : einet_ok E) B (HB : discrete_leaf B (leafE E)) c f l r v :
  (c < e_C E)%nat -> (f < e_F E)%nat -> (l < e_L E)%nat -> (r < e_R E)%nat -> (v < B)%nat -> pdf (leafE E) c f l r v <= 1.
Proof.
  intros Hc Hf Hl Hr Hv. rewrite <- (pdf_sum E HE B HB c f l r) by auto.
  rewrite <- (rsum_indicator B v (fun i => pdf (leafE E) c f l r i)) at 1 by auto. apply rsum_le. intros i Hi0.
  pose proof (pdf_pos E c f l r i). destruct (Nat.eqb i v); lra.
Qed.
(** Hiding more entries never lowers the likelihood of discrete data. *)
Theorem lik_mono_missing (E : einet nat) B N N' x x' ms ms' n n' k : einet_ok E -> discrete_leaf B (leafE E) ->
  input_ok E N x ms -> input_ok E N' x' ms' -> (n < N)%nat -> (n' < N')%nat -> (k < e_K E)%nat ->
  (forall c f, (c < e_C E)%nat -> (f < e_F E)%nat -> in_ms ms' f = true \/ entry x' n' c f = None \/ (in_ms ms f = false /\ entry x' n' c f = entry x n c f)) ->
  lik E x ms n k <= lik E x' ms' n' k.
Proof.
  intros HE HB Hi Hi' Hn Hn' Hk H. rewrite (lik_eval E HE N) by auto. rewrite (lik_eval E HE N') by auto.
  apply neteval_mono; [apply fnet_wf; auto|auto|]. intros c f l r Hc Hf Hl Hr. cbn [fnet net_with nC nF nL nR] in *.
  unfold lval. destruct (row x' ms' n' c f) as [v|] eqn:Ev.
  - assert (Ex: row x ms n c f = Some v).
    { unfold row in *. destruct (in_ms ms' f) eqn:Em; [discriminate|]. destruct (H c f Hc Hf) as [D|[D|[-> <-]]]; auto; congruence. }
    rewrite Ex. split; [left; apply exp_pos|lra].
  - destruct (row x ms n c f) as [v|] eqn:Ex; [|lra]. split; [left; apply exp_pos|]. apply (pdf_le_1 E HE B HB); auto.
    destruct Hi as (_ & Hs & _). unfold row in Ex. destruct (in_ms ms f); [discriminate|]. specialize (Hs n c f v Hn Hc Hf Ex).
    fold (leafE E) in Hs. rewrite (dl_supp B _ HB) in Hs. apply Nat.ltb_lt; auto.
Qed.

Lemma lik_mono_scopes (E : einet nat) B N x S S' n k : einet_ok E -> discrete_leaf B (leafE E) ->
  batch E N x -> scopes_ok E N x S -> scopes_ok E N x S' -> (n < N)%nat -> (k < e_K E)%nat ->
  (forall f, In f S -> In f S') -> lik E x (Some S) n k <= lik E x (Some S') n k.
Proof.
  intros HE HB Hb Hs Hs' Hn Hk H. apply (lik_mono_missing E B N N); auto; try (apply batch_input_ms; auto).
  intros c f _ _. cbn [in_ms]. destruct (existsb (Nat.eqb f) S') eqn:E1; auto. right. right. split; auto.
  destruct (existsb (Nat.eqb f) S) eqn:E2; auto. rewrite <- E1. apply existsb_exists in E2 as (g & G & Eg). apply Nat.eqb_eq in Eg. subst g.
  symmetry. apply existsb_exists. exists f. split; auto. apply Nat.eqb_refl.
Qed.

Lemma nodup_app_intro {A} (l1 l2 : list A) : NoDup l1 -> NoDup l2 -> (forall a, In a l1 -> ~ In a l2) -> NoDup (l1 ++ l2).
Proof.
  intros H1 H2 H. induction H1 as [|a l1 Ha H1 IH]; cbn [app]; auto. constructor.
  - intros Hi. apply in_app_or in Hi as [Hi|Hi]; [auto|]. apply (H a); [left; auto|auto].
  - apply IH. intros b Hb. apply H. right. auto.
Qed.
(** [vectors B n] is complete and has no duplicates. *)
Lemma vectors_complete B n w : In w (vectors B n) <-> length w = n /\ forall i, In i w -> (i < B)%nat.
Proof.
  revert w. induction n; intros w; cbn [vectors].
  - split. + intros [<-|[]]. split; auto. intros i []. + intros [H _]. destruct w; [left; auto|discriminate].
  - rewrite in_flat_map. split.
    + intros (v & Hv & H). apply in_map_iff in H as (w' & <- & H). apply IHn in H as [Hl Hi]. apply in_seq in Hv.
      split; [cbn; lia|]. intros i [<-|H]; [lia|auto].
    + intros [Hl Hi]. destruct w as [|v w]; [discriminate|]. exists v. split; [apply in_seq; specialize (Hi v (or_introl eq_refl)); lia|].
      apply in_map. apply IHn. split; [cbn in Hl; lia|]. intros i H. apply Hi. right. auto.
Qed.
Lemma vectors_nodup B n : NoDup (vectors B n).
Proof.
  induction n; cbn [vectors]. { constructor; [intros []|constructor]. }
  generalize (seq_NoDup B 0). generalize (seq 0 B). intros l Hl. induction Hl as [|v l Hv Hl IH]; cbn [flat_map]; [constructor|].
  apply nodup_app_intro; auto.
  - apply FinFun.Injective_map_NoDup; auto. intros a b H. inversion H. auto.
  - intros w H1 H2. apply in_map_iff in H1 as (w1 & <- & _). apply in_flat_map in H2 as (v' & Hv' & H2).
    apply in_map_iff in H2 as (w2 & E2 & _). inversion E2; subst. auto.
Qed.
