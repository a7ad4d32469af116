(** The network as a function of data points. *)
From Coq Require Import List Arith Lia Bool Reals Lra.
Import ListNotations.
From Verif Require Import Base RSum Num Tensor Prob Layers Circuit Net RefFwd RefSample Leaf Perm RefLeaf RefLeafS Einet RefNet RefEinet RefEinetS Build RefBuild Spec.
Local Open Scope R_scope.
Local Arguments Nat.div : simpl never.
Local Arguments Nat.modulo : simpl never.
Local Arguments Nat.sub : simpl never.
Local Arguments Nat.mul : simpl never.
Local Arguments Nat.add : simpl never.

Lemma accepted_ok {V} g o (E : einet V) : accepted g o E -> einet_ok E.
Proof. intros [Hc Ho Hb]. apply (build_inv g o E Hc Ho Hb). Qed.

Lemma batch_input {V} (E : einet V) N x : batch E N x -> input_ok E N x None.
Proof. intros [H1 H2]. split; auto. Qed.
Lemma batch_input_ms {V} (E : einet V) N x S : batch E N x -> scopes_ok E N x S -> input_ok E N x (Some S).
Proof. intros [H1 H2] [H3 H4]. split; auto. Qed.

Section Fwd.
Context {V : Type}.
Variable E : einet V.
Hypothesis HE : einet_ok E.
Let lf := leafE E.

Lemma pdf_pos c f l r v : 0 < pdf lf c f l r v.
Proof. apply exp_pos. Qed.
Lemma neteval_row_pos x k : (k < e_K E)%nat -> 0 < neteval (fnet E) (lval (pdf lf) x) k.
Proof.
  intros Hk. apply neteval_pos; auto; [apply fnet_wf; auto|]. intros c f l r _ _ _ _. unfold lval. destruct (x c f); [apply pdf_pos|lra].
Qed.
Lemma lik_eval N x ms n k : input_ok E N x ms -> (n < N)%nat -> (k < e_K E)%nat ->
  lik E x ms n k = neteval (fnet E) (lval (pdf lf) (row x ms n)) k.
Proof.
  intros Hi Hn Hk. destruct (forward_rep E HE N x ms Hi) as (y & Ey & _ & Gy). unfold lik. rewrite Ey, Gy by auto.
  cbn [pval]. apply exp_ln. apply neteval_row_pos; auto.
Qed.
Lemma neteval_row_ext z z' k : (k < e_K E)%nat ->
  (forall c f, (c < e_C E)%nat -> (f < e_F E)%nat -> z c f = z' c f) ->
  neteval (fnet E) (lval (pdf lf) z) k = neteval (fnet E) (lval (pdf lf) z') k.
Proof.
  intros Hk H. apply neteval_ext; auto; [apply fnet_wf; auto|]. intros c f l r Hc Hf _ _. unfold lval. rewrite H; auto.
Qed.

(** C05 *)
Theorem forward_total N x ms : input_ok E N x ms ->
  exists y, forward E x ms = Ok y /\ shape y = [N; e_K E] /\
    forall n k, (n < N)%nat -> (k < e_K E)%nat -> isfin (get y [n; k]) = true.
Proof.
  intros Hi. destruct (forward_rep E HE N x ms Hi) as (y & Ey & Sy & Gy). exists y. repeat split; auto.
  intros n k Hn Hk. rewrite Gy by auto. reflexivity.
Qed.
(** C06 *)
Theorem forward_rows N N' x x' ms y y' n n' k : input_ok E N x ms -> input_ok E N' x' ms ->
  forward E x ms = Ok y -> forward E x' ms = Ok y' -> (n < N)%nat -> (n' < N')%nat -> (k < e_K E)%nat ->
  (forall c f, (c < e_C E)%nat -> (f < e_F E)%nat -> in_ms ms f = false -> entry x n c f = entry x' n' c f) ->
  get y [n; k] = get y' [n'; k].
Proof.
  intros Hi Hi' Ey Ey' Hn Hn' Hk H. destruct (forward_rep E HE N x ms Hi) as (z & Ez & _ & Gz).
  destruct (forward_rep E HE N' x' ms Hi') as (z' & Ez' & _ & Gz'). rewrite Ey in Ez. rewrite Ey' in Ez'.
  inversion Ez; inversion Ez'; subst. rewrite Gz, Gz' by auto. do 2 f_equal. apply neteval_row_ext; auto.
  intros c f Hc Hf. unfold row. destruct (in_ms ms f) eqn:Em; auto.
Qed.
(** C04 *)
Theorem forward_missing N x ms n k : input_ok E N x ms -> (n < N)%nat -> (k < e_K E)%nat ->
  (forall c f, (c < e_C E)%nat -> (f < e_F E)%nat -> in_ms ms f = true \/ entry x n c f = None) ->
  exists y, forward E x ms = Ok y /\ get y [n; k] = Fin 0.
Proof.
  intros Hi Hn Hk H. destruct (forward_rep E HE N x ms Hi) as (y & Ey & _ & Gy). exists y. split; auto.
  rewrite Gy by auto. rewrite neteval_one; [rewrite ln_1; auto|apply fnet_wf; auto|auto|].
  intros c f l r Hc Hf _ _. unfold lval, row. destruct (H c f Hc Hf) as [->|E0]; auto. rewrite E0. destruct (in_ms ms f); auto.
Qed.
End Fwd.

(** * Sums over data points *)
Lemma vectors_all_idx B n : vectors B n = all_idx (repeat B n).
Proof. induction n; cbn [vectors repeat all_idx]; auto. rewrite IHn. auto. Qed.
Lemma vectors_In B n w : In w (vectors B n) -> length w = n /\ forall i, (i < n)%nat -> (nth i w 0 < B)%nat.
Proof.
  revert w. induction n; cbn [vectors]; intros w H.
  - destruct H as [<-|[]]. split; auto. intros; lia.
  - apply in_flat_map in H as (v & Hv & H). apply in_map_iff in H as (w' & <- & H). apply IHn in H as [H1 H2].
    apply in_seq in Hv. split; [simpl; lia|]. intros [|i] Hi; cbn [nth]; [lia|apply H2; lia].
Qed.
Lemma lsum_filter {A} (h : A -> R) b (l : list A) : lsum h (filter b l) = lsum (fun x => if b x then h x else 0) l.
Proof. induction l; cbn [filter lsum]; auto. destruct (b a); cbn [lsum]; rewrite IHl; lra. Qed.

Lemma agrees_from_iff z : forall xs i, agrees_from z i xs = true <-> forall j, (j < length xs)%nat -> agrees_at z (i + j) (nth j xs 0%nat) = true.
Proof.
  induction xs as [|v xs IH]; intros i; cbn [agrees_from length].
  - split; auto. intros; lia.
  - rewrite andb_true_iff, IH. split.
    + intros [H1 H2] [|j] Hj; cbn [nth]; [rewrite Nat.add_0_r; auto|]. replace (i + S j)%nat with (S i + j)%nat by lia. apply H2. lia.
    + intros H. split; [specialize (H 0%nat); rewrite Nat.add_0_r in H; apply H; lia|]. intros j Hj.
      specialize (H (S j)). cbn [nth] in H. replace (S i + j)%nat with (i + S j)%nat by lia. apply H. lia.
Qed.
Lemma completes_iff C F z w : completes C F z w = true <->
  forall c f, (c < C)%nat -> (f < F)%nat -> match z c f with None => True | Some v => v = nth (c * F + f) w 0%nat end.
Proof.
  unfold completes. rewrite forallb_forall. split.
  - intros H c f Hc Hf. specialize (H c). rewrite in_seq in H. specialize (H ltac:(lia)). rewrite forallb_forall in H.
    specialize (H f). rewrite in_seq in H. specialize (H ltac:(lia)). destruct (z c f); auto. apply Nat.eqb_eq; auto.
  - intros H c Hc. apply in_seq in Hc. rewrite forallb_forall. intros f Hf. apply in_seq in Hf. specialize (H c f ltac:(lia) ltac:(lia)).
    destruct (z c f); auto. apply Nat.eqb_eq; auto.
Qed.
Lemma divmod_lt C F i : (i < C * F)%nat -> (i / F < C)%nat /\ (i mod F < F)%nat /\ (i / F * F + i mod F = i)%nat.
Proof.
  intros H. assert (F <> 0)%nat by (intros ->; lia). split; [apply Nat.div_lt_upper_bound; lia|].
  split; [apply Nat.mod_upper_bound; auto|]. pose proof (Nat.div_mod i F ltac:(auto)). lia.
Qed.
Lemma agrees_completes C F z w : length w = (C * F)%nat ->
  agrees_from (fun i => z (i / F)%nat (i mod F)%nat) 0 w = completes C F z w.
Proof.
  intros Hl. apply eq_true_iff_eq. rewrite agrees_from_iff, completes_iff. rewrite Hl. unfold agrees_at. split.
  - intros H c f Hc Hf. specialize (H (c * F + f)%nat ltac:(nia)). rewrite Nat.add_0_l in H.
    rewrite Nat.div_add_l, (Nat.div_small f), Nat.add_0_r in H by lia.
    rewrite (Nat.add_comm (c * F)), Nat.mod_add, Nat.mod_small in H by lia.
    destruct (z c f); auto. apply Nat.eqb_eq in H. rewrite Nat.add_comm. auto.
  - intros H j Hj. rewrite Nat.add_0_l. destruct (divmod_lt C F j Hj) as (A & B & D). specialize (H _ _ A B). rewrite D in H.
    destruct (z _ _); auto. apply Nat.eqb_eq; auto.
Qed.

Section Disc.
Variable G : cnet.
Hypothesis Hw : cnet_wf G.
Variable B : nat.
Variable p : nat -> nat -> nat -> nat -> nat -> R.
Hypothesis Hp : forall c f l r v, (c < nC G)%nat -> (f < nF G)%nat -> (l < nL G)%nat -> (r < nR G)%nat -> 0 <= p c f l r v.
Hypothesis Hsum : forall c f l r, (c < nC G)%nat -> (f < nF G)%nat -> (l < nL G)%nat -> (r < nR G)%nat -> rsum B (p c f l r) = 1.

Lemma net_completions z k : (k < nCls G)%nat ->
  (forall c f v, (c < nC G)%nat -> (f < nF G)%nat -> z c f = Some v -> (v < B)%nat) ->
  neteval G (lval p z) k =
  sum_points B (nC G) (nF G) z (fun w => neteval G (lval p (fun c f => Some (nth (c * nF G + f) w 0%nat))) k).
Proof.
  intros Hk Hz. set (C := nC G) in *. set (F := nF G) in *.
  set (P := fun zz : nat -> option nat => neteval G (lval p (fun c f => zz (c * F + f)%nat)) k).
  assert (Pext: forall z1 z2, (forall i, (i < C * F)%nat -> z1 i = z2 i) -> P z1 = P z2).
  { intros z1 z2 H. apply neteval_ext; auto. intros c f l r Hc Hf _ _. unfold lval. rewrite H; auto. fold C F in Hc, Hf. nia. }
  pose proof (enum_completions (C * F) B P (fun i => z (i / F)%nat (i mod F)%nat) Pext) as EC.
  transitivity (P (fun i => z (i / F)%nat (i mod F)%nat)).
  { apply neteval_ext; auto. intros c f l r Hc Hf _ _. unfold lval. fold C F in Hc, Hf.
    rewrite Nat.div_add_l, (Nat.div_small f), Nat.add_0_r by lia.
    rewrite (Nat.add_comm (c * F)), Nat.mod_add, Nat.mod_small by lia. auto. }
  rewrite EC.
  - unfold sum_points. rewrite lsum_filter, vectors_all_idx. apply lsum_ext. intros w Hi.
    rewrite <- vectors_all_idx in Hi. apply vectors_In in Hi as [Hl _]. rewrite (agrees_completes C F) by auto. destruct (completes C F z w); auto.
  - intros zz i Hi Hn. destruct (divmod_lt C F i Hi) as (A & A' & D).
    transitivity (neteval G (lval p (updx (fun c f => zz (c * F + f)%nat) (i / F) (i mod F) None)) k).
    { apply neteval_ext; auto. intros c f l r Hc Hf _ _. unfold lval, updx. fold C F in Hc, Hf.
      destruct (Nat.eqb_spec c (i / F)), (Nat.eqb_spec f (i mod F)); cbn [andb]; subst; auto. rewrite D, Hn. auto. }
    rewrite <- (net_sum_out G Hw B p Hp Hsum _ _ _ _ Hk A A'). apply rsum_ext. intros v _.
    apply neteval_ext; auto. intros c f l r Hc Hf _ _. unfold lval, updx. fold C F in Hc, Hf.
    destruct (Nat.eqb_spec (c * F + f) i) as [e|e].
    + subst i. rewrite Nat.div_add_l, (Nat.div_small f), Nat.add_0_r by lia.
      rewrite (Nat.add_comm (c * F)), Nat.mod_add, Nat.mod_small by lia. rewrite !Nat.eqb_refl. auto.
    + destruct (Nat.eqb_spec c (i / F)), (Nat.eqb_spec f (i mod F)); cbn [andb]; subst; auto. congruence.
  - intros i v Hi Hv. destruct (divmod_lt C F i Hi) as (A & A' & D). eapply Hz; eauto.
Qed.
End Disc.

Section DiscE.
Variable E : einet nat.
Hypothesis HE : einet_ok E.
Variable B : nat.
Hypothesis HB : discrete_leaf B (leafE E).
Let lf := leafE E.

Lemma pval_pdf c f l r v : (c < e_C E)%nat -> (f < e_F E)%nat -> (l < e_L E)%nat -> (r < e_R E)%nat -> (v < B)%nat ->
  pval (lf_logp lf [c; f; l; r] v) = pdf lf c f l r v.
Proof.
  intros Hc Hf Hl Hr Hv. destruct (eo_leaf E HE) as [_ H]. fold (leafE E) in H. fold lf in H. unfold pdf.
  rewrite (isfin_Fin (lf_logp lf [c; f; l; r] v)); [reflexivity|].
  assert (D := conj (eo_lC E HE) (conj (eo_lF E HE) (conj (eo_lL E HE) (eo_lR E HE)))). fold (leafE E) in D. fold lf in D.
  destruct D as (D1 & D2 & D3 & D4). apply H; try lia. rewrite (dl_supp B _ HB). apply Nat.ltb_lt. auto.
Qed.
Lemma pdf_sum c f l r : (c < e_C E)%nat -> (f < e_F E)%nat -> (l < e_L E)%nat -> (r < e_R E)%nat -> rsum B (pdf lf c f l r) = 1.
Proof.
  intros Hc Hf Hl Hr. rewrite <- (dl_sum B _ HB c f l r).
  - apply rsum_ext. intros v Hv. symmetry. apply pval_pdf; auto.
  - unfold leafE. rewrite (eo_lC E HE). auto.
  - unfold leafE. rewrite (eo_lF E HE). auto.
  - unfold leafE. rewrite (eo_lL E HE). auto.
  - unfold leafE. rewrite (eo_lR E HE). auto.
Qed.
Lemma point_batch w : In w (vectors B (e_C E * e_F E)) -> batch E 1 (point (e_C E) (e_F E) w).
Proof.
  intros H. apply vectors_In in H as [Hl Hv]. split; [right; left; reflexivity|].
  intros n c f v Hn Hc Hf Hx. cbn in Hx. inversion Hx; subst v. rewrite (dl_supp B _ HB). apply Nat.ltb_lt. apply Hv. nia.
Qed.
Lemma lik_point w k : In w (vectors B (e_C E * e_F E)) -> (k < e_K E)%nat ->
  lik E (point (e_C E) (e_F E) w) None 0 k = neteval (fnet E) (lval (pdf lf) (fun c f => Some (nth (c * e_F E + f) w 0%nat))) k.
Proof.
  intros H Hk. rewrite (lik_eval E HE 1); auto; try (apply batch_input, point_batch; auto).
Qed.
Lemma sum_points_ext C F z h h' : (forall w, In w (vectors B (C * F)) -> h w = h' w) -> sum_points B C F z h = sum_points B C F z h'.
Proof. intros H. apply lsum_ext. intros w Hw. apply filter_In in Hw as [Hw _]. auto. Qed.

(** The likelihood with missing entries is the sum over all completions. *)
Theorem lik_completions N x ms n k : input_ok E N x ms -> (n < N)%nat -> (k < e_K E)%nat ->
  lik E x ms n k = sum_points B (e_C E) (e_F E) (row x ms n) (fun w => lik E (point (e_C E) (e_F E) w) None 0 k).
Proof.
  intros Hi Hn Hk. rewrite (lik_eval E HE N) by auto.
  rewrite (net_completions (fnet E) (fnet_wf E HE) B (pdf (leafE E))).
  - apply sum_points_ext. intros w Hw. symmetry. apply lik_point; auto.
  - intros. left. apply pdf_pos.
  - intros. apply pdf_sum; auto.
  - auto.
  - intros c f v Hc Hf Hv. cbn [fnet net_with nC nF] in Hc, Hf. destruct Hi as (_ & Hs & _). unfold row in Hv. destruct (in_ms ms f); [discriminate|].
    specialize (Hs n c f v Hn Hc Hf Hv). fold (leafE E) in Hs. rewrite (dl_supp B _ HB) in Hs. apply Nat.ltb_lt. auto.
Qed.
Theorem lik_normalized k : (k < e_K E)%nat ->
  lsum (fun w => lik E (point (e_C E) (e_F E) w) None 0 k) (vectors B (e_C E * e_F E)) = 1.
Proof.
  intros Hk. set (z := fun _ _ : nat => @None nat).
  transitivity (sum_points B (e_C E) (e_F E) z (fun w => lik E (point (e_C E) (e_F E) w) None 0 k)).
  - unfold sum_points. rewrite lsum_filter. apply lsum_ext. intros w _.
    replace (completes (e_C E) (e_F E) z w) with true; auto. symmetry. apply completes_iff. intros; exact I.
  - rewrite <- (neteval_one (fnet E) (lval (pdf lf) z) k); [|apply fnet_wf; auto|auto|intros c f l r _ _ _ _; reflexivity].
    symmetry. rewrite (net_completions (fnet E) (fnet_wf E HE) B (pdf (leafE E))).
    + apply sum_points_ext. intros w Hw. symmetry. apply lik_point; auto.
    + intros. left. apply pdf_pos.
    + intros. apply pdf_sum; auto.
    + auto.
    + intros; discriminate.
Qed.
End DiscE.
