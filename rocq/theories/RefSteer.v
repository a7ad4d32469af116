(** The law of samples given evidence at a temperature other than one. *)
From Coq Require Import List Arith Lia Bool Reals Lra.
Import ListNotations.
From Verif Require Import Base RSum Num Tensor Prob Layers Circuit Net RefFwd RefSample RefLaw Leaf Perm RefLeaf RefLeafS Einet RefNet RefEinet RefEinetS RefTemper.
Local Open Scope R_scope.
Local Arguments Nat.div : simpl never.
Local Arguments Nat.modulo : simpl never.
Local Arguments Nat.sub : simpl never.
Local Arguments Nat.mul : simpl never.
Local Arguments Nat.add : simpl never.

(** * Networks with shifted parameters *)
(** The logits divided by [T] plus [h]. *)
Definition shifted (T : R) (L : slay) (h : list nat -> num) : slay :=
  mkL (nf L) (sin L) (sout L) (nrep L) (mkT (shape (logits L)) (fun i => nadd (over T (get (logits L) i)) (h i))).
(** What the layer stored for row [n]: the log-likelihood of the evidence at the children of every product. *)
Definition stored_pairs (n : nat) (ca : option cache) (i : list nat) : num :=
  match ca, i with Some (CLR a b), [d; _; r; i; j] => nadd (get a [n; d; i; r]) (get b [n; d; j; r]) | _, _ => Fin 0 end.
Definition stored_both (n : nat) (ca : option cache) (i : list nat) : num :=
  match ca, i with Some (CLR a b), [d; k; _; r] => nadd (get a [n; d; k; r]) (get b [n; d; k; r]) | _, _ => Fin 0 end.
Definition stored_one (n : nat) (ca : option cache) (i : list nat) : num :=
  match ca, i with Some (CIn x), [d; k; _; r] => get x [n; d; k; r] | _, _ => Fin 0 end.
Definition stored_rep (n : nat) (ca : option cache) (i : list nat) : num :=
  match ca, i with Some (CIn x), [_; y; r] => get x [n; 0%nat; y; r] | _, _ => Fin 0 end.
Definition steer_layer (T : R) (n : nat) (l : layer) (ca : option cache) : layer :=
  match l with
  | LEin L => LEin (shifted T L (stored_pairs n ca))
  | LLin L => LLin (shifted T L (stored_both n ca))
  | LLin2 L => LLin2 (shifted T L (stored_one n ca))
  | LSum L => LSum (shifted T L (stored_one n ca))
  | LRoot D => LRoot D
  end.
Fixpoint steer_layers (T : R) (n : nat) (ls : list layer) (cs : list (option cache)) : list layer :=
  match ls, cs with l :: ls', ca :: cs' => steer_layer T n l ca :: steer_layers T n ls' cs' | _, _ => [] end.
(** [E] with the sum parameters divided by [T] and increased by the log-likelihoods of the evidence row [n] that the forward pass
    has stored, and with other leaves. *)
Definition steer {V} (T : R) (n : nat) (cs : caches) (lf : bleaf V) (E : einet V) : einet V :=
  mkE (e_F E) (e_C E) (e_L E) (e_R E) (e_K E) (with_leaf lf (e_leaf E)) (e_perm E) (steer_layers T n (e_layers E) (ca_layers cs))
    (option_map (fun m => shifted T m (stored_rep n (ca_mixing cs))) (e_mixing E)) (option_map (cool_slay T) (e_root E)).

(** * Weights *)
Lemma over_fin T x : T <> 0 -> isfin x = true -> over T x = Fin (toR x / T).
Proof. intros HT H. destruct x; try discriminate. apply ndiv_fin; auto. Qed.
Lemma softmax_shift K (a : nat -> R) (u : nat -> R) k : (0 < K)%nat -> (forall k, (k < K)%nat -> 0 < u k) -> (k < K)%nat ->
  rsoftmax K (fun k => a k + ln (u k)) k = rsoftmax K a k * u k / rsum K (fun k => rsoftmax K a k * u k).
Proof.
  intros HK Hu Hk. unfold rsoftmax.
  assert (Z: 0 < rsum K (fun i => exp (a i))) by (apply rsum_pos; auto; intros; apply exp_pos).
  rewrite (rsum_ext K (fun i => exp (a i + ln (u i))) (fun i => exp (a i) * u i)) by (intros i Hi; rewrite exp_plus, exp_ln; auto).
  rewrite (rsum_ext K (fun i => exp (a i) / rsum K (fun i => exp (a i)) * u i) (fun i => exp (a i) * u i * / rsum K (fun i => exp (a i)))) by (intros i Hi; field; lra).
  rewrite rsum_scal_r, exp_plus, exp_ln by auto.
  assert (0 < rsum K (fun i => exp (a i) * u i)) by (apply rsum_pos; auto; intros; apply Rmult_lt_0_compat; auto; apply exp_pos).
  field. lra.
Qed.
(** Posterior weights as a network layer. *)
Lemma wsoft_shift K T f h u k : T <> 0 -> (0 < K)%nat -> (k < K)%nat -> (forall k, (k < K)%nat -> isfin (f k) = true) ->
  (forall k, (k < K)%nat -> 0 < u k /\ h k = Fin (ln (u k))) ->
  wsoft K 1 (fun k => nadd (over T (f k)) (h k)) k = wsoft K T f k * u k / rsum K (fun k => wsoft K T f k * u k).
Proof.
  intros HT HK Hk Hf Hh. unfold wsoft. rewrite <- softmax_shift; auto; [|intros; apply Hh; auto].
  assert (Ea: forall i, (i < K)%nat -> toR (nadd (over T (f i)) (h i)) / 1 = toR (f i) / T + ln (u i)).
  { intros i Hi. rewrite over_fin by auto. destruct (Hh i Hi) as [_ ->]. cbn [nadd toR]. field. auto. }
  unfold rsoftmax. rewrite Ea by auto. f_equal. apply rsum_ext. intros i Hi. rewrite Ea; auto.
Qed.
Lemma uprod_vmul U h v d o r k : uprod U (vmul h v) d o r k = uprod U h d o r k * uprod U v d o r k.
Proof. unfold uprod, vmul. induction (ukids U d) as [|x l IH]; cbn [lprod]; [ring|]. rewrite IH. ring. Qed.
Lemma ueval_post Rn U U' v h d o r : uwf Rn U -> vpos (uDin U) (uSin U) Rn v ->
  (d < uDout U)%nat -> (o < uSout U)%nat -> (r < Rn)%nat ->
  uK U' = uK U -> (forall k, uprod U' h d o r k = uprod U h d o r k) ->
  (forall k, (k < uK U)%nat -> uW U' d o r k = uW U d o r k * uprod U v d o r k / rsum (uK U) (fun k => uW U d o r k * uprod U v d o r k)) ->
  ueval U' h d o r = ueval U (vmul h v) d o r / ueval U v d o r.
Proof.
  intros Hw Hv Hd Ho Hr EK EP EW. unfold ueval at 1. rewrite EK. unfold ueval, Rdiv. rewrite <- rsum_scal_r. apply rsum_ext. intros k Hk.
  rewrite EW, EP, uprod_vmul by auto. unfold Rdiv. ring.
Qed.
Lemma shifted_fin T L h s : T <> 0 -> lfin (logits L) s -> (forall idx, inb s idx -> isfin (h idx) = true) -> lfin (logits (shifted T L h)) s.
Proof.
  intros HT [Hs Hf] Hh. split; [exact Hs|]. intros idx Hi. cbn [shifted logits get]. rewrite over_fin by auto.
  specialize (Hh idx Hi). destruct (h idx); try discriminate. reflexivity.
Qed.
Lemma inb4 a b c d idx : inb [a; b; c; d] idx -> exists i j k l, idx = [i; j; k; l] /\ (i < a)%nat /\ (j < b)%nat /\ (k < c)%nat /\ (l < d)%nat.
Proof. intros H. destruct idx as [|i [|j [|k [|l [|]]]]]; cbn [inb] in H; try tauto. exists i, j, k, l. tauto. Qed.
Lemma inb5 a b c d e idx : inb [a; b; c; d; e] idx -> exists i j k l m, idx = [i; j; k; l; m] /\ (i < a)%nat /\ (j < b)%nat /\ (k < c)%nat /\ (l < d)%nat /\ (m < e)%nat.
Proof. intros H. destruct idx as [|i [|j [|k [|l [|m [|]]]]]]; cbn [inb] in H; try tauto. exists i, j, k, l, m. tauto. Qed.
Lemma inb3 a b c idx : inb [a; b; c] idx -> exists i j k, idx = [i; j; k] /\ (i < a)%nat /\ (j < b)%nat /\ (k < c)%nat.
Proof. intros H. destruct idx as [|i [|j [|k [|]]]]; cbn [inb] in H; try tauto. exists i, j, k. tauto. Qed.

(** What is stored is the logarithm of the product of the children. *)
Lemma stored_pairs_val L N n ca v d o r i j : einsum_cached L N ca v -> (n < N)%nat -> (d < einsum_features_out L)%nat -> (i < sin L)%nat -> (j < sin L)%nat -> (r < nrep L)%nat ->
  0 < v n (2 * d)%nat i r * v n (2 * d + 1)%nat j r /\ stored_pairs n ca [d; o; r; i; j] = Fin (ln (v n (2 * d)%nat i r * v n (2 * d + 1)%nat j r)).
Proof.
  intros [[-> ->]|(cl & cr & -> & [_ H1] & [_ H2])] Hn Hd Hi Hj Hr; cbn [stored_pairs].
  - unfold vone. rewrite Rmult_1_r, ln_1. split; [lra|reflexivity].
  - destruct (H1 n d i r Hn Hd Hi Hr) as [P1 ->]. destruct (H2 n d j r Hn Hd Hj Hr) as [P2 ->]. unfold lval2 in *. cbn [nadd].
    rewrite ln_mult by auto. split; [apply Rmult_lt_0_compat; auto|reflexivity].
Qed.
Lemma stored_both_val L N n ca v d o r k : linsum_cached L N ca v -> (n < N)%nat -> (d < linsum_features_out L)%nat -> (k < sin L)%nat -> (r < nrep L)%nat ->
  0 < v n (2 * d)%nat k r * rval2 (nf L) (v n) d k r /\ stored_both n ca [d; k; o; r] = Fin (ln (v n (2 * d)%nat k r * rval2 (nf L) (v n) d k r)).
Proof.
  intros [[-> ->]|(cl & cr & -> & [_ H1] & [_ H2])] Hn Hd Hi Hr; cbn [stored_both].
  - unfold vone, rval2. destruct (_ <? _)%nat; rewrite Rmult_1_r, ln_1; split; try lra; reflexivity.
  - destruct (H1 n d k r Hn Hd Hi Hr) as [P1 ->]. destruct (H2 n d k r Hn Hd Hi Hr) as [P2 ->]. unfold lval2 in *. cbn [nadd].
    rewrite ln_mult by auto. split; [apply Rmult_lt_0_compat; auto|reflexivity].
Qed.
Lemma stored_one_val L N n ca v d o r k : sum_cached L N ca v -> (n < N)%nat -> (d < nf L)%nat -> (k < sin L)%nat -> (r < nrep L)%nat ->
  0 < v n d k r /\ stored_one n ca [d; k; o; r] = Fin (ln (v n d k r)).
Proof.
  intros [[-> ->]|(x & -> & [_ H1])] Hn Hd Hi Hr; cbn [stored_one].
  - unfold vone. rewrite ln_1. split; [lra|reflexivity].
  - apply H1; auto.
Qed.
Lemma stored_rep_val L N n ca v y r q : mixing_cached L N ca v -> (n < N)%nat -> (y < sout L)%nat -> (r < sin L)%nat ->
  0 < v n y r /\ stored_rep n ca [q; y; r] = Fin (ln (v n y r)).
Proof.
  intros [[-> ->]|(x & -> & _ & H1)] Hn Hd Hi; cbn [stored_rep].
  - rewrite ln_1. split; [lra|reflexivity].
  - apply H1; auto.
Qed.

Lemma steer_ok Rn D S l N ca v T n : layer_ok Rn D S l -> layer_cached l N ca v -> (n < N)%nat -> T <> 0 -> layer_ok Rn D S (steer_layer T n l ca).
Proof.
  destruct l as [L|L|L|L|D']; cbn [layer_ok steer_layer layer_cached]; intros H Hca Hn HT.
  - destruct H as [(H1 & H2 & H3 & H4 & H5 & H6) (<- & <- & <-)]. split; [|repeat split].
    split; [exact H1|]. split; [exact H2|]. split; [exact H3|]. split; [exact H4|]. split; [exact H5|]. apply shifted_fin; auto. intros idx Hi. apply inb5 in Hi as (d & o & r & i & j & -> & Hd & Ho & Hr & Hi & Hj).
    destruct (stored_pairs_val L N n ca v d o r i j) as [_ ->]; auto.
  - destruct H as [(H1 & H2 & H6) (<- & <- & <-)]. split; [|repeat split].
    split; [exact H1|]. split; [exact H2|]. apply shifted_fin; auto. intros idx Hi. apply inb4 in Hi as (d & k & o & r & -> & Hd & Hk & Ho & Hr).
    destruct (stored_both_val L N n ca v d o r k) as [_ ->]; auto.
  - destruct H as [(H1 & H2 & H6) (He & <- & <- & <-)]. split; [|repeat split; auto].
    split; [exact H1|]. split; [exact H2|]. apply shifted_fin; auto. intros idx Hi.
    unfold linsum2_weight_shape in Hi. apply inb4 in Hi as (d & k & o & r & -> & Hd & Hk & Ho & Hr).
    destruct (stored_one_val L N n ca v d o r k) as [_ ->]; auto.
  - destruct H as [(H1 & H6) (<- & <- & <-)]. split; [|repeat split].
    split; [exact H1|]. apply shifted_fin; auto. intros idx Hi. apply inb4 in Hi as (d & k & o & r & -> & Hd & Hk & Ho & Hr).
    destruct (stored_one_val L N n ca v d o r k) as [_ ->]; auto.
  - exact H.
Qed.
Lemma steer_dout T n l ca : layer_dout (steer_layer T n l ca) = layer_dout l.
Proof. destruct l; reflexivity. Qed.
Lemma steer_sout T n l ca S : layer_sout S (steer_layer T n l ca) = layer_sout S l.
Proof. destruct l; reflexivity. Qed.

Lemma sum_post L T n N ca v h d o r : (0 < sin L)%nat -> lfin (logits L) [nf L; sin L; sout L; nrep L] -> T <> 0 -> sum_cached L N ca v -> (n < N)%nat ->
  vpos (nf L) (sin L) (nrep L) (v n) -> (d < nf L)%nat -> (o < sout L)%nat -> (r < nrep L)%nat ->
  ueval (sum_u (shifted T L (stored_one n ca)) 1) h d o r = ueval (sum_u L T) (vmul h (v n)) d o r / ueval (sum_u L T) (v n) d o r.
Proof.
  intros H1 H6 HT Hca Hn Hv Hd Ho Hr. apply (ueval_post (nrep L) (sum_u L T)); auto; [apply sum_u_wf; auto|].
  intros k Hk. cbn [sum_u uW uK shifted sin logits] in *. unfold linsum_w. cbn [logits get shifted sin].
  rewrite (wsoft_shift (sin L) T (fun k => get (logits L) [d; k; o; r]) (fun k => stored_one n ca [d; k; o; r]) (fun k => v n d k r)); auto.
  - unfold uprod. cbn [sum_u ukids usel lprod]. rewrite Rmult_1_r. f_equal. apply rsum_ext. intros k' Hk'. rewrite Rmult_1_r. reflexivity.
  - intros k' Hk'. apply H6. cbn [inb]. auto 10.
  - intros k' Hk'. apply (stored_one_val L N n ca v); auto.
Qed.
Lemma steer_eval Rn D S l N ca v T n h d o r : layer_ok Rn D S l -> layer_cached l N ca v -> (n < N)%nat -> T <> 0 -> vpos D S Rn (v n) ->
  (d < layer_dout l)%nat -> (o < layer_sout S l)%nat -> (r < Rn)%nat ->
  evals (layer_us 1 S (steer_layer T n l ca)) h d o r = evals (layer_us T S l) (vmul h (v n)) d o r / evals (layer_us T S l) (v n) d o r.
Proof.
  destruct l as [L|L|L|L|D']; cbn [layer_ok steer_layer layer_cached layer_us layer_dout layer_sout evals fold_left]; intros H Hca Hn HT Hv Hd Ho Hr.
  - destruct H as [(H1 & H2 & H3 & H4 & H5 & H6) (<- & <- & <-)].
    apply (ueval_post (nrep L) (einsum_u L T)); auto; [apply einsum_u_wf; auto|].
    intros k Hk. cbn [einsum_u uW uK shifted sin logits] in *. unfold einsum_w. cbn [logits get shifted sin].
    assert (HK: forall k, (k < sin L * sin L)%nat -> (k / sin L < sin L)%nat /\ (k mod sin L < sin L)%nat).
    { intros k' Hk'. split; [apply Nat.div_lt_upper_bound; lia|apply Nat.mod_upper_bound; lia]. }
    assert (UP: forall k, uprod (einsum_u L T) (v n) d o r k = v n (2 * d)%nat (k / sin L)%nat r * v n (2 * d + 1)%nat (k mod sin L) r).
    { intros k'. unfold uprod. cbn [einsum_u ukids usel lprod]. rewrite Nat.eqb_refl. destruct (Nat.eqb_spec (2 * d + 1) (2 * d)); [lia|]. ring. }
    rewrite (wsoft_shift (sin L * sin L) T (fun k => get (logits L) [d; o; r; k / sin L; k mod sin L]%nat) (fun k => stored_pairs n ca [d; o; r; k / sin L; k mod sin L]%nat)
      (fun k => uprod (einsum_u L T) (v n) d o r k)); auto; [nia| |].
    + intros k' Hk'. destruct (HK k' Hk'). apply H6. cbn [inb einsum_weight_shape]. auto 10.
    + intros k' Hk'. destruct (HK k' Hk'). rewrite UP. apply (stored_pairs_val L N n ca v); auto.
  - destruct H as [(H1 & H2 & H6) (<- & <- & <-)].
    apply (ueval_post (nrep L) (linsum_u L T)); auto; [apply linsum_u_wf; auto|].
    intros k Hk. cbn [linsum_u uW uK shifted sin logits] in *. unfold linsum_w. cbn [logits get shifted sin].
    assert (UP: forall k, uprod (linsum_u L T) (v n) d o r k = v n (2 * d)%nat k r * rval2 (nf L) (v n) d k r).
    { intros k'. unfold uprod, rval2. cbn [linsum_u ukids usel]. unfold pair_kids. destruct (_ <? _)%nat; cbn [lprod]; ring. }
    rewrite (wsoft_shift (sin L) T (fun k => get (logits L) [d; k; o; r]) (fun k => stored_both n ca [d; k; o; r]) (fun k => uprod (linsum_u L T) (v n) d o r k)); auto.
    + intros k' Hk'. apply H6. cbn [inb linsum_weight_shape]. auto 10.
    + intros k' Hk'. rewrite UP. apply (stored_both_val L N n ca v); auto.
  - destruct H as [(H1 & H2 & H6) (He & <- & <- & <-)].
    assert (H6': lfin (logits L) [nf L; sin L; sout L; nrep L]).
    { exact H6. }
    set (U := pairprod_u (nf L) (sout L)).
    assert (Q: forall w, ueval U w d o r = lprod (fun d' => w d' o r) (pair_kids (nf L) d)).
    { intros w. unfold ueval, uprod, U. cbn [pairprod_u uK uW ukids usel]. rewrite rsum_S, rsum_0. ring. }
    cbn [shifted nf sout]. fold U. rewrite !Q. clear Q.
    assert (Kid: forall d', In d' (pair_kids (nf L) d) -> (d' < nf L)%nat).
    { intros d' Hi. apply pair_kids_spec in Hi; [lia|]. unfold linsum_features_out, linsum_pad in Hd. rewrite div2_half in Hd. exact Hd. }
    pose proof (sum_u_wf (nrep L) L T H1) as Hw.
    induction (pair_kids (nf L) d) as [|d' l IH]; cbn [lprod]; [field|].
    rewrite IH by (intros; apply Kid; right; auto). rewrite (sum_post L T n N ca v) by (auto; apply Kid; left; auto).
    assert (P: 0 < ueval (sum_u L T) (v n) d' o r) by (apply (ueval_pos (nrep L)); auto; apply Kid; left; auto).
    assert (P': 0 < lprod (fun d' => ueval (sum_u L T) (v n) d' o r) l).
    { clear IH. induction l as [|e l IHl]; cbn [lprod]; [lra|]. apply Rmult_lt_0_compat; [apply (ueval_pos (nrep L)); auto; apply Kid; right; left; auto|].
      apply IHl. intros; apply Kid. cbn [In] in *. tauto. }
    field. lra.
  - destruct H as [(H1 & H6) (<- & <- & <-)]. apply (sum_post L T n N ca v); auto.
  - subst D'. unfold ueval, uprod. cbn [rootprod_u uK uW ukids usel]. rewrite !rsum_S, !rsum_0, !Rplus_0_l, !Rmult_1_l.
    assert (Kid: forall d', In d' (seq 0 D) -> (d' < D)%nat) by (intros d' Hi; apply in_seq in Hi; lia).
    induction (seq 0 D) as [|d' l IH]; cbn [lprod]; [field|].
    rewrite IH by (intros; apply Kid; right; auto). unfold vmul at 2.
    assert (P: 0 < v n d' o r) by (apply Hv; auto; apply Kid; left; auto).
    assert (P': 0 < lprod (fun d' => v n d' o r) l).
    { clear IH. induction l as [|e l IHl]; cbn [lprod]; [lra|]. apply Rmult_lt_0_compat; [apply Hv; auto; apply Kid; right; left; auto|].
      apply IHl. intros; apply Kid. cbn [In] in *. tauto. }
    field. lra.
Qed.

(** * The law of the layers *)
Section Law.
Context {V : Type}.
Variable EL : list nat -> (V -> R) -> R.
Hypothesis HEL : leaf_expectation EL.

Lemma steer_layers_ok Rn ls : forall D S D' S' N cs v T n, layers_ok Rn ls D S D' S' -> layers_cached 1 Rn D S ls cs N v -> (n < N)%nat -> T <> 0 ->
  layers_ok Rn (steer_layers T n ls cs) D S D' S'.
Proof.
  induction ls as [|l ls IH]; intros D S D' S' N cs v T n H Hca Hn HT; cbn [layers_ok layers_cached steer_layers] in *; [exact H|].
  destruct cs as [|ca cs]; [destruct Hca|]. destruct H as [H1 H2]. destruct Hca as [(v' & Hc1 & _) Hc2]. cbn [layers_ok].
  split; [eapply steer_ok; eauto|]. rewrite steer_dout, steer_sout. eapply IH; eauto.
Qed.
Theorem steer_law Rn ls : forall D S D' S' N cs v T, layers_ok Rn ls D S D' S' -> (0 < N)%nat -> T <> 0 ->
  layers_cached 1 Rn D S ls cs N v -> (forall n, (n < N)%nat -> vpos D S Rn (v n)) ->
  forall c, cgood c N D' S' Rn -> c_mpe c = false -> c_tsum c = T ->
  (forall supp r, outcome (V := V) supp (sample_layers (combine ls cs) c) r -> exists c', r = Ok c' /\ cgood c' N D S Rn /\
      c_rep c' = c_rep c /\ c_mpe c' = false /\ c_tsum c' = T) /\
  (forall h, expect EL (sample_layers (combine ls cs) c) (fun c' => tprod N D c' h) =
     tprod N D' c (fun n => evals (layers_us 1 S (steer_layers T n ls cs)) (h n))).
Proof.
  induction ls as [|l ls IH]; intros D S D' S' N cs v T Hok HN HT Hca Hv c Hc Hm Ht.
  - destruct Hok as [<- <-]. destruct cs; [|destruct Hca]. cbn [combine steer_layers layers_us sample_layers]. split.
    + intros supp r Ho. apply outcome_ret_inv in Ho. exists c. auto 10.
    + intros h. cbn [expect]. reflexivity.
  - destruct cs as [|ca cs]; [destruct Hca|]. cbn [layers_ok layers_cached combine sample_layers] in *.
    destruct Hok as [H1 H2]. destruct Hca as [(v' & Hc1 & Ev) Hc2].
    pose proof (layer_chain 1 _ _ _ _ H1) as C1.
    assert (Hv1: forall n, (n < N)%nat -> vpos (layer_dout l) (layer_sout S l) Rn (evals (layer_us 1 S l) (v n))) by (intros n Hn; eapply evals_pos; [exact C1|auto]).
    destruct (IH _ _ _ _ N cs _ T H2 HN HT Hc2 Hv1 c Hc Hm Ht) as [O X].
    assert (Hv': forall n, (n < N)%nat -> vpos D S Rn (v' n)) by (intros n Hn d s r Hd Hs Hr; rewrite <- Ev by auto; apply Hv; auto).
    pose proof (layer_sample_law EL HEL Rn D S l N ca v' T H1 HN HT Hc1 Hv') as L. split.
    + intros supp r Ho. apply outcome_bind in Ho as [(e & Ho & _)|(c1 & Ho & Hr)].
      { destruct (O _ _ Ho) as (c' & Z & _). discriminate. }
      destruct (O _ _ Ho) as (c1' & Z & G1 & E1 & M1 & T1). inversion Z; subst c1'. destruct (L c1 G1 M1 T1) as [O1 _].
      destruct (O1 _ _ Hr) as (c2 & Z2 & G2 & E2 & M2 & T2). exists c2. rewrite E2, E1. auto 10.
    + intros h. rewrite expect_bind by auto.
      rewrite (expect_ext_outcome EL HEL _ _ (fun c1 => tprod N (layer_dout l) c1 (fun n => evals (layer_us 1 S (steer_layer T n l ca)) (h n)))).
      * rewrite X. unfold tprod. apply rprod2_ext. intros n d Hn Hd. cbn [steer_layers layers_us]. rewrite evals_app, steer_sout. reflexivity.
      * intros c1 Ho. destruct (O _ _ Ho) as (c1' & Z & G1 & E1 & M1 & T1). inversion Z; subst c1'. destruct (L c1 G1 M1 T1) as [_ X1]. rewrite X1.
        unfold tprod. apply rprod2_ext. intros n d Hn Hd. symmetry. destruct G1 as (_ & _ & Go & _ & Gr).
        apply (steer_eval Rn D S l N ca v' T n (h n)); auto.
Qed.
End Law.

(** * The law of the network *)
Section Net.
Context {V : Type}.
Variable E : einet V.
Hypothesis HE : einet_ok E.
Variable EL : list nat -> (V -> R) -> R.
Hypothesis HEL : leaf_expectation EL.
Let lf := leaf_of (e_leaf E).

Lemma steer_net_ok T n cs lf' N v : T <> 0 -> (n < N)%nat -> leaf_ok lf' -> lf_C lf' = e_C E -> lf_F lf' = e_F E -> lf_L lf' = e_L E -> lf_R lf' = e_R E ->
  layers_cached 1 (e_R E) (leaf_out E) (e_L E) (e_layers E) (ca_layers cs) N v ->
  (forall m, (1 < e_R E)%nat -> e_mixing E = Some m -> exists w, mixing_cached m N (ca_mixing cs) w) ->
  einet_ok (steer T n cs lf' E).
Proof.
  intros HT Hn Hl EC EF EL' ER Hc Hm. pose proof HE as [H1 H2 H3 H4 H5 H6 H7 H8 H9 H10 H11 H12 H13 H14].
  assert (LO: leaf_out (steer T n cs lf' E) = leaf_out E) by (unfold leaf_out, steer; cbn [e_leaf e_F]; destruct (e_leaf E); reflexivity).
  assert (LF: leaf_of (e_leaf (steer T n cs lf' E)) = lf') by (unfold steer; cbn [e_leaf]; destruct (e_leaf E); reflexivity).
  split; rewrite ?LF; auto.
  - unfold leaf_layer_ok in *. unfold steer. cbn [e_leaf e_perm e_F e_R]. destruct (e_leaf E); exact H11.
  - rewrite LO. unfold steer. cbn [e_R e_layers e_L e_K]. eapply steer_layers_ok; eauto.
  - unfold steer. cbn [e_R e_mixing e_K]. intros HR. destruct (H13 HR) as (m & Em & (M1 & M2 & M3) & S1 & S2). destruct (Hm m HR Em) as (w & Hw).
    rewrite Em. eexists. split; [reflexivity|]. split; [|split; [exact S1|exact S2]]. split; [exact M1|]. split; [exact M2|]. apply shifted_fin; auto.
    intros idx Hi. unfold mixing_weight_shape in Hi. cbn [shifted nf sout sin] in Hi. apply inb3 in Hi as (q & y & r & -> & Hq & Hy & Hr).
    destruct (stored_rep_val m N n (ca_mixing cs) w y r q) as [_ ->]; auto.
  - unfold steer. cbn [e_root e_K]. intros HK. destruct (H14 HK) as (s & Es & (S1 & S2) & S3 & S4 & S5 & S6). rewrite Es. eexists. split; [reflexivity|].
    split; [|auto]. split; [exact S1|]. destruct S2 as [A B]. split; [exact A|]. intros idx Hi. cbn [cool_slay logits tmap get]. rewrite over_fin by auto. reflexivity.
Qed.
Lemma steer_mix T n cs lf' N v y r : T <> 0 -> (n < N)%nat -> (y < e_K E)%nat -> (r < e_R E)%nat ->
  (forall n y r, (n < N)%nat -> (y < e_K E)%nat -> (r < e_R E)%nat -> 0 < v n y r) -> mcached E N (ca_mixing cs) v ->
  emix (steer T n cs lf' E) 1 y r = emix E T y r * v n y r / rsum (e_R E) (fun r => emix E T y r * v n y r).
Proof.
  intros HT Hn Hy Hr Hv Hca. unfold emix, steer. cbn [e_mixing e_R]. destruct (Nat.ltb_spec 1 (e_R E)) as [HR|HR].
  - destruct (eo_mix E HE HR) as (m & Em & (M1 & M2 & M3) & S1 & S2). rewrite Em. cbn [option_map].
    destruct (Hca HR m Em) as (v' & Hca' & Ev'). unfold mixing_w at 1. cbn [shifted sin logits get].
    rewrite (wsoft_shift (sin m) T (fun k => get (logits m) [0; y; k]%nat) (fun k => stored_rep n (ca_mixing cs) [0; y; k]%nat) (fun k => v' n y k)); auto; try (rewrite S1; auto).
    + rewrite Ev' by auto. unfold mixing_w. rewrite S1. f_equal. apply rsum_ext. intros k Hk. rewrite Ev'; auto.
    + intros k Hk. apply M3. unfold mixing_weight_shape. rewrite M2, S1, S2. cbn [inb]. auto.
    + intros k Hk. apply (stored_rep_val m N n (ca_mixing cs) v' y k 0%nat); auto; rewrite ?S1, ?S2; auto.
  - pose proof (eo_R E HE). assert (R1: e_R E = 1%nat) by lia. rewrite R1 in *. assert (r = 0)%nat by lia. subst r. rewrite rsum_S, rsum_0.
    specialize (Hv n y 0%nat Hn Hy Hr). destruct (e_mixing E); cbn [option_map]; field; lra.
Qed.

Lemma steer_walk a cs v lf' : class_ok E a -> (0 < num_samples a)%nat -> a_mpe a = false -> a_tsum a <> 0 ->
  let N := num_samples a in let T := a_tsum a in
  cs_ok E 1 N cs v -> (forall n, (n < N)%nat -> vpos (leaf_out E) (e_L E) (e_R E) (v n)) ->
  (forall supp r, outcome supp (walk E a cs) r -> exists c', r = Ok c' /\ cgood c' N (leaf_out E) (e_L E) (e_R E) /\ c_mpe c' = false) /\
  (forall h, expect EL (walk E a cs) (fun c' => tprod N (leaf_out E) c' h) =
     rprod N (fun n => rsum (e_K E) (fun y => cweight E a n y *
       rsum (e_R E) (fun r => emix (steer T n cs lf' E) 1 y r * evals (layers_us 1 (e_L E) (steer_layers T n (e_layers E) (ca_layers cs))) (h n) 0%nat y r)))).
Proof.
  intros Hcl HN Hm HT N T [Hl Hmx] Hv.
  destruct (class_step_law E HE EL HEL a Hcl HN Hm HT) as [O1 X1]. fold N in O1, X1, HN. fold T in O1, HT.
  set (vm := fun n y r => evals (us E 1) (v n) 0%nat y r).
  assert (Hvm: forall n y r, (n < N)%nat -> (y < e_K E)%nat -> (r < e_R E)%nat -> 0 < vm n y r).
  { intros n y r Hn Hy Hr. apply (evals_root_pos E HE 1 (v n) y r); auto. }
  pose proof (fun c => mixing_step_law E HE EL HEL N T cs vm c HT Hmx Hvm) as M.
  pose proof (steer_law EL HEL (e_R E) (e_layers E) (leaf_out E) (e_L E) 1 (e_K E) N (ca_layers cs) v T (eo_layers E HE) HN HT Hl Hv) as L.
  unfold walk. split.
  - intros supp r Ho. apply outcome_bind in Ho as [(e & Ho & _)|(nc & Ho & Hr)].
    { destruct (O1 _ _ Ho) as (c' & Z & _). discriminate. }
    destruct (O1 _ _ Ho) as (c1 & Z & G1 & Em1 & Et1). inversion Z; subst nc. cbn [fst snd] in Hr.
    destruct (M c1 G1 Et1 Em1) as [O2 _].
    apply outcome_bind in Hr as [(e & Hr & _)|(c2 & Ho2 & Hr)].
    { destruct (O2 _ _ Hr) as (c' & Z' & _). discriminate. }
    destruct (O2 _ _ Ho2) as (c2' & Z2 & G2 & Em2 & Et2). inversion Z2; subst c2'.
    destruct (L c2 G2 Em2 Et2) as [O3 _]. destruct (O3 _ _ Hr) as (c3 & Z3 & G3 & _ & Em3 & _). exists c3. auto.
  - intros h. set (W := fun n y r => evals (layers_us 1 (e_L E) (steer_layers T n (e_layers E) (ca_layers cs))) (h n) 0%nat y r).
    rewrite expect_bind by auto.
    rewrite (expect_ext_outcome EL HEL _ _ (fun nc => rprod N (fun n => let y := get (c_out (snd nc)) [n; 0%nat] in
       rsum (e_R E) (fun r => emix (steer T n cs lf' E) 1 y r * W n y r)))).
    + etransitivity; [|apply (X1 (fun n y => rsum (e_R E) (fun r => emix (steer T n cs lf' E) 1 y r * W n y r)))]. reflexivity.
    + intros nc Ho. destruct (O1 _ _ Ho) as (c1 & Z & G1 & Em1 & Et1). inversion Z; subst nc. cbn [fst snd].
      destruct (M c1 G1 Et1 Em1) as [O2 X2]. rewrite expect_bind by auto.
      rewrite (expect_ext_outcome EL HEL _ _ (fun c2 => rprod N (fun n => W n (get (c_out c2) [n; 0%nat]) (get (c_rep c2) [n])))).
      2:{ intros c2 Ho2. destruct (O2 _ _ Ho2) as (c2' & Z2 & G2 & Em2 & Et2). inversion Z2; subst c2'.
          destruct (L c2 G2 Em2 Et2) as [_ X3]. rewrite (X3 h). unfold tprod. apply rprod_ext. intros n Hn.
          rewrite rprod_S, rprod_0, Rmult_1_l. reflexivity. }
      rewrite (X2 W). apply rprod_ext. intros n Hn. cbv zeta. set (y := get (c_out c1) [n; 0%nat]).
      assert (Hy: (y < e_K E)%nat) by (destruct G1 as (_ & _ & Go & _); apply Go; auto).
      unfold Rdiv. rewrite <- rsum_scal_r. apply rsum_ext. intros r Hr.
      rewrite (steer_mix T n cs lf' N vm y r) by auto. unfold Rdiv. ring.
Qed.

Lemma steer_core a cs v lf' : class_ok E a -> (0 < num_samples a)%nat -> a_mpe a = false -> a_mpel a = false -> a_tsum a <> 0 ->
  lf_ctx lf = true ->
  let N := num_samples a in let T := a_tsum a in
  cs_ok E 1 N cs v -> (forall n, (n < N)%nat -> vpos (leaf_out E) (e_L E) (e_R E) (v n)) ->
  (forall supp r, outcome supp (core E a cs) r -> exists t, r = Ok t /\ shape t = [N; e_C E; e_F E] /\
     forall n c f, (n < N)%nat -> (c < e_C E)%nat -> (f < e_F E)%nat ->
       exists l r, (l < e_L E)%nat /\ (r < e_R E)%nat /\ supp [c; f; l; r] (get t [n; c; f])) /\
  (forall g : nat -> nat -> nat -> V -> R,
     expect EL (core E a cs) (fun t => rprod3 N (e_C E) (e_F E) (fun n c f => g n c f (get t [n; c; f]))) =
     rprod N (fun n => rsum (e_K E) (fun y => cweight E a n y *
       neteval (net_with (steer T n cs lf' E) (sgrp E) 1) (elg EL (g n)) y))).
Proof.
  intros Hcl HN Hm Hml HT Hctx N T Hcs Hv. destruct (steer_walk a cs v lf' Hcl HN Hm HT Hcs Hv) as [O X]. fold N in O, X, HN. fold T in X.
  pose proof (eo_lC E HE) as EC. pose proof (eo_lF E HE) as EF.
  pose proof (eo_lL E HE) as EL'. pose proof (eo_lR E HE) as ER. fold lf in EC, EF, EL', ER.
  assert (HG: forall r f, (r < lf_R lf)%nat -> (f < lf_F lf)%nat -> (sgrp E r f < leaf_out E)%nat).
  { rewrite EF, ER. intros. apply sgrp_lt; auto. }
  unfold core. rewrite Hm, Hml. cbn [orb]. split.
  - intros supp r Ho. apply outcome_bind in Ho as [(e & Ho & _)|(c & Ho & Hr)].
    { destruct (O _ _ Ho) as (c' & Z & _). discriminate. }
    destruct (O _ _ Ho) as (c' & Z & Gc & _). inversion Z; subst c'.
    destruct (bottom_routes E HE c N Hctx HN Gc) as (k & Hk & Eb). rewrite Eb in Hr.
    pose proof Gc as (_ & _ & Go & _ & Gr). fold lf in Hk, Hr.
    rewrite <- EL', <- ER in Gc. destruct (leaf_draw_outcome lf supp k c N (leaf_out E) (sgrp E) r Gc HG Hk Hr) as (t & -> & St & Gt).
    exists t. split; auto. rewrite EC, EF in St, Gt. split; auto. intros n ch f Hn Hch Hf.
    exists (get (c_out c) [n; sgrp E (get (c_rep c) [n]) f]), (get (c_rep c) [n]). split; [|split; auto].
    apply Go; auto. rewrite EF, ER in HG. apply HG; auto.
  - intros g. rewrite expect_bind by auto.
    rewrite (expect_ext_outcome EL HEL _ _ (fun c => tprod N (leaf_out E) c (fun n => gleaf (e_F E) (e_C E) (sgrp E) (elg EL (g n))))).
    + rewrite X. reflexivity.
    + intros c Ho. destruct (O _ _ Ho) as (c' & Z & Gc & _). inversion Z; subst c'.
      destruct (bottom_routes E HE c N Hctx HN Gc) as (k & Hk & Eb). rewrite Eb. fold lf in Hk |- *.
      rewrite <- EL', <- ER in Gc. pose proof (leaf_draw_law lf EL HEL k c N (leaf_out E) (sgrp E) g Gc HG Hk) as D.
      rewrite EC, EF in D. exact D.
Qed.

Theorem steer_evidence_law a e y cs lf' : a_ev a = Some e -> check_args E a = Ok tt -> let N := num_samples a in let T := a_tsum a in
  input_ok E N e (a_ms a) -> forward_full E e (a_ms a) = Ok (y, cs) -> (0 < N)%nat ->
  a_mpe a = false -> a_mpel a = false -> T <> 0 -> lf_ctx lf = true -> groups_agree E ->
  leaf_ok lf' -> lf_C lf' = e_C E -> lf_F lf' = e_F E -> lf_L lf' = e_L E -> lf_R lf' = e_R E ->
  (forall n, (n < N)%nat -> einet_ok (steer T n cs lf' E)) /\
  forall g : nat -> nat -> nat -> option V -> R,
     expect EL (sample E a) (fun o => rprod3 N (e_C E) (e_F E) (fun n c f => g n c f (entry o n c f))) =
     rprod N (fun n => rsum (e_K E) (fun y => cweight E a n y *
       neteval (fnet (steer T n cs lf' E)) (fun c f l r => match row e (a_ms a) n c f with
                                         | Some v => g n c f (Some v)
                                         | None => EL [c; f; l; r] (fun v => g n c f (Some v)) end) y)).
Proof.
  intros Hev Hch N T Hin Ef HN Hm Hml HT Hctx HG Hl' LC LF LL LR.
  assert (Hcl: class_ok E a).
  { unfold class_ok. unfold check_args in Hch. rewrite Hev in Hch. destruct (a_class a); auto; discriminate. }
  destruct (forward_full_rep E HE N e (a_ms a) Hin) as (y' & cs' & Ey & _ & _ & v & Hv & Hc1 & Hc2). fold lf in Hv.
  rewrite Ef in Ey. inversion Ey; subst y' cs'.
  assert (Ec: ev_caches E a = Ok cs) by (unfold ev_caches; rewrite Hev, Ef; auto).
  assert (Pv: forall n, (n < N)%nat -> vpos (leaf_out E) (e_L E) (e_R E) (v n)).
  { intros n Hn d s r Hd Hs Hr. rewrite Hv by auto. apply (leafval_pos (fnet E)); auto. intros. apply lval_pos. }
  assert (Hcs: cs_ok E 1 N cs v).
  { split; auto. intros HR m Em. eexists. split; [apply Hc2; auto|]. reflexivity. }
  assert (OK: forall n, (n < N)%nat -> einet_ok (steer T n cs lf' E)).
  { intros n Hn. eapply steer_net_ok; eauto. }
  split; [exact OK|]. rewrite (sample_core E a _ Hch Ec).
  destruct (steer_core a cs v lf' Hcl HN Hm Hml HT Hctx Hcs Pv) as [O X]. fold N in O, X. fold T in X. unfold finish. rewrite Hev.
  intros g. rewrite expect_bind by auto.
  set (g' := fun n c f w => g n c f (match row e (a_ms a) n c f with Some v => Some v | None => Some w end)).
  rewrite (expect_ext_outcome EL HEL _ _ (fun t => rprod3 N (e_C E) (e_F E) (fun n c f => g' n c f (get t [n; c; f])))).
  2:{ intros t Ho. destruct (O _ _ Ho) as (t' & Z & St & _). inversion Z; subst t'.
      destruct (merge_ok E N e (a_ms a) t Hin St) as (o & Eo & So & Go). rewrite Eo. cbn [lift expect].
      apply rprod3_ext. intros n c f Hn Hc Hf. rewrite Go by auto. unfold g'. destruct (row e (a_ms a) n c f); auto. }
  rewrite (X g'). apply rprod_ext. intros n Hn. apply rsum_ext. intros k Hk. f_equal. unfold neteval.
  pose proof (layers_chain 1 _ _ _ _ _ _ (eo_layers _ (OK n Hn))) as C. cbn [fnet net_with nR nmix nls].
  apply rsum_ext. intros r Hr. f_equal. eapply (evals_ext (e_R E)); [exact C| | | |]; auto.
  intros d s q Hd Hs Hq. unfold leafval, fnet, net_with. cbn [nF nC ngroup steer e_F e_C].
  apply rprod_ext. intros f Hf. change (fgrp (mkE _ _ _ _ _ _ _ _ _ _) q f) with (fgrp (steer T n cs lf' E) q f).
  assert (Gf: fgrp (steer T n cs lf' E) q f = sgrp E q f).
  { rewrite HG by auto. unfold fgrp, steer. cbn [e_leaf e_perm e_F]. destruct (e_leaf E); reflexivity. }
  rewrite Gf. destruct (Nat.eqb (sgrp E q f) d); [|reflexivity].
  apply rprod_ext. intros c Hc. unfold elg, g'. destruct (row e (a_ms a) n c f) as [w|]; [|reflexivity].
  rewrite (EL_ext EL HEL _ _ (fun _ => g n c f (Some w) * 1)) by (intros; ring). rewrite (EL_scal EL HEL), (EL_one EL HEL). ring.
Qed.
End Net.
