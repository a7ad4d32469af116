(** How far mpe() can be from a most probable completion: every choice it makes keeps at least its share of
    the value of the node. *)
From Coq Require Import List Arith Lia Bool Reals Lra.
Import ListNotations.
From Verif Require Import Base RSum Num Tensor Prob Layers Circuit Net RefFwd RefSample RefLaw Leaf Perm RefLeaf RefLeafS Einet RefNet RefEinet RefEinetS RefMpe.
Local Open Scope R_scope.
Local Arguments Nat.div : simpl never.
Local Arguments Nat.modulo : simpl never.
Local Arguments Nat.sub : simpl never.
Local Arguments Nat.mul : simpl never.
Local Arguments Nat.add : simpl never.

Lemma max_share K (w : nat -> R) k : rsum K w = 1 -> (forall j, (j < K)%nat -> w j <= w k) -> 1 <= INR K * w k.
Proof. intros Hs Hm. rewrite <- Hs. rewrite <- (rsum_const K (w k)). apply rsum_le. auto. Qed.
Lemma rprod_const n c : rprod n (fun _ => c) = c ^ n.
Proof. induction n; [apply rprod_0|]. rewrite rprod_S, IHn. simpl. ring. Qed.
Lemma rprod_scal n c f : rprod n (fun i => c * f i) = c ^ n * rprod n f.
Proof. rewrite rprod_mult, rprod_const. reflexivity. Qed.
Lemma rsum_one_term n k (f : nat -> R) : (k < n)%nat -> (forall i, (i < n)%nat -> 0 <= f i) -> f k <= rsum n f.
Proof. intros Hk H. unfold rsum. apply (lsum_term_le f (seq 0 n) k); [apply in_seq0; auto|]. intros b Hb. apply in_seq0 in Hb. auto. Qed.

Section Approx.
Context {V : Type}.

Definition vnn (D S Rn : nat) (v : vals) : Prop := forall d s r, (d < D)%nat -> (s < S)%nat -> (r < Rn)%nat -> 0 <= v d s r.
Lemma evals_nn Rn ls D S D' S' v : uchain Rn ls D S D' S' -> vnn D S Rn v -> vnn D' S' Rn (evals ls v).
Proof.
  intros Hc Hv d s r Hd Hs Hr. apply (evals_mono Rn ls D S D' S' v v Hc); auto.
  intros d' s' r' Hd' Hs' Hr'. split; [apply Hv; auto|lra].
Qed.

(** In mpe mode nothing is drawn; a product of test functions at the chosen indices is at most [kappa] times
    the ratio that the random walk would give on average. *)
Definition layer_mpe (f : sctx -> M V sctx) (N Rn : nat) (us : list ulayer) (Din Sin Dout Sout : nat) (T : R) (v : nat -> vals) (kappa : R) : Prop :=
  forall c, cgood c N Dout Sout Rn -> c_mpe c = true -> c_tsum c = T ->
  exists c', f c = Ret c' /\ cgood c' N Din Sin Rn /\ c_rep c' = c_rep c /\ c_mpe c' = true /\ c_tsum c' = T /\
  forall n (h : vals), (n < N)%nat -> vnn Din Sin Rn h ->
    rprod Din (fun d => h d (get (c_out c') [n; d]) (get (c_rep c) [n])) <=
    kappa * rprod Dout (fun d => evals us (vmul h (v n)) d (get (c_out c) [n; d]) (get (c_rep c) [n]) /
                                 evals us (v n) d (get (c_out c) [n; d]) (get (c_rep c) [n])).

Lemma ratio_nn Rn us D S D' S' v h d o r : uchain Rn us D S D' S' -> vpos D S Rn v -> vnn D S Rn h -> (d < D')%nat -> (o < S')%nat -> (r < Rn)%nat ->
  0 <= evals us (vmul h v) d o r / evals us v d o r.
Proof.
  intros Hc Hv Hh Hd Ho Hr. unfold Rdiv. apply Rmult_le_pos.
  - apply (evals_nn Rn us D S D' S'); auto. intros d' s' r' H1 H2 H3. unfold vmul. apply Rmult_le_pos; auto. left. auto.
  - left. apply Rinv_0_lt_compat. apply (evals_pos Rn us D S D' S'); auto.
Qed.

Lemma sampler_mpe f N Rn U v T : uwf Rn U -> (0 < uK U)%nat -> (forall n, (n < N)%nat -> vpos (uDin U) (uSin U) Rn (v n)) ->
  sampler f N Rn U v T -> layer_mpe f N Rn [U] (uDin U) (uSin U) (uDout U) (uSout U) T v (INR (uK U) ^ uDout U).
Proof.
  intros Hw HK Hv Hs c Hc Hm HT. destruct (Hs c Hc HT) as (lw & g & Ef & Hlw & Hg). rewrite Ef.
  pose proof Hc as (Hn & So & Go & Sr & Gr).
  destruct (choose_mpe (V := V) c lw N _ _ _ Hm Hlw HK) as (t & Et & St & Gt).
  destruct (Hg t St) as (i & Ei & Si & Gi); [intros; apply Gt; auto|].
  exists (set_out c i). rewrite Et. cbn [mbind]. split; [exact Ei|]. split; [|split; [reflexivity|]; split; [exact Hm|]; split; [exact HT|]].
  - split; [exact Hn|]. split; [exact Si|]. split; [|split; auto].
    intros n d Hn' Hd. unfold set_out; cbn [c_out]. rewrite Gi by auto.
    assert (P: (upar U d < uDout U)%nat) by (apply (uw_par _ _ Hw); auto).
    apply (uw_sel _ _ Hw); auto; [apply Gt; auto|]. apply (uw_kids _ _ Hw); auto.
  - intros n h Hn' Hh. unfold set_out. cbn [c_out].
    rewrite <- (uprod_kids Rn U) by auto.
    rewrite <- rprod_scal. apply rprod_le. intros d Hd.
    set (o := get (c_out c) [n; d]). set (r := get (c_rep c) [n]). set (k := get t [n; d]).
    assert (Ho: (o < uSout U)%nat) by (apply Go; auto). assert (Hr: (r < Rn)%nat) by (apply Gr; auto).
    destruct (Gt n d Hn' Hd) as [Hk Hmax]. fold k in Hk, Hmax. fold o r in Hmax.
    assert (EL: lprod (fun d' => h d' (get i [n; d']) r) (ukids U d) = lprod (fun d' => h d' (usel U d o k d') r) (ukids U d)).
    { apply lprod_ext. intros d' Hd'. apply (uw_kids _ _ Hw) in Hd' as [L E']; auto. rewrite Gi by auto. rewrite E'. reflexivity. }
    rewrite EL.
    assert (HP: forall j, (j < uK U)%nat -> 0 <= lprod (fun d' => h d' (usel U d o j d') r) (ukids U d)).
    { intros j Hj. apply lprod_nonneg. intros d' Hd'. apply Hh; auto; [apply (uw_kids _ _ Hw) in Hd'; tauto|apply (uw_sel _ _ Hw); auto]. }
    split; [apply HP; auto|].
    change (evals [U] (vmul h (v n))) with (ueval U (vmul h (v n))). change (evals [U] (v n)) with (ueval U (v n)).
    rewrite <- (upost_step Rn U (v n) (vmul h (v n))); auto.
    rewrite (rsum_ext _ _ (fun j => upost U (v n) d o r j * lprod (fun d' => h d' (usel U d o j d') r) (ukids U d))).
    2:{ intros j Hj. f_equal. apply lprod_ext. intros d' Hd'. unfold vmul.
        assert (0 < v n d' (usel U d o j d') r) by (apply Hv; auto; [apply (uw_kids _ _ Hw) in Hd'; tauto|apply (uw_sel _ _ Hw); auto]).
        field. lra. }
    pose proof (max_share (uK U) (upost U (v n) d o r) k (upost_sum Rn U (v n) d o r Hw (Hv n Hn') Hd Ho Hr) Hmax) as MS.
    assert (PP: forall j, (j < uK U)%nat -> 0 <= upost U (v n) d o r j).
    { intros j Hj. left. unfold upost, Rdiv. apply Rmult_lt_0_compat; [apply Rmult_lt_0_compat; [apply (uw_pos _ _ Hw); auto|apply (uprod_pos Rn); auto]|].
      apply Rinv_0_lt_compat. apply (ueval_pos Rn U (v n)); auto. }
    pose proof (rsum_one_term (uK U) k (fun j => upost U (v n) d o r j * lprod (fun d' => h d' (usel U d o j d') r) (ukids U d)) Hk) as Q.
    cbv beta in Q. specialize (Q ltac:(intros j Hj; apply Rmult_le_pos; auto)).
    pose proof (HP k Hk) as PK. pose proof (pos_INR (uK U)) as PI.
    pose proof (Rmult_le_compat_r _ _ _ PK MS) as A1. pose proof (Rmult_le_compat_l _ _ _ PI Q) as A2. lra.
Qed.

Lemma route_mpe f N Rn U v T : uwf Rn U -> uK U = 1%nat -> (forall n, (n < N)%nat -> vpos (uDin U) (uSin U) Rn (v n)) ->
  (forall c, cgood c N (uDout U) (uSout U) Rn -> exists c', f c = Ret c' /\ cgood c' N (uDin U) (uSin U) Rn /\
     c_rep c' = c_rep c /\ c_mpe c' = c_mpe c /\ c_tsum c' = c_tsum c /\
     forall n d', (n < N)%nat -> (d' < uDin U)%nat -> get (c_out c') [n; d'] = usel U (upar U d') (get (c_out c) [n; upar U d']) 0%nat d') ->
  layer_mpe f N Rn [U] (uDin U) (uSin U) (uDout U) (uSout U) T v 1.
Proof.
  intros Hw HK Hv Hf c Hc Hm HT. destruct (Hf c Hc) as (c' & Ef & Gc & R1 & M1 & T1 & G1). exists c'.
  split; auto. split; auto. split; auto. split; [congruence|]. split; [congruence|].
  intros n h Hn Hh. pose proof Hc as (Hn' & So & Go & Sr & Gr). rewrite Rmult_1_l.
  rewrite <- (uprod_kids Rn U) by auto. apply Req_le. apply rprod_ext. intros d Hd.
  change (evals [U] (vmul h (v n))) with (ueval U (vmul h (v n))). change (evals [U] (v n)) with (ueval U (v n)).
  assert (Ho: (get (c_out c) [n; d] < uSout U)%nat) by auto. assert (Hr: (get (c_rep c) [n] < Rn)%nat) by auto.
  rewrite <- (upost_step Rn U (v n) (vmul h (v n))); auto.
  pose proof (upost_sum Rn U (v n) d _ _ Hw (Hv n Hn) Hd Ho Hr) as P1. rewrite HK in *. rewrite rsum_S, rsum_0 in P1 |- *.
  assert (P: upost U (v n) d (get (c_out c) [n; d]) (get (c_rep c) [n]) 0%nat = 1) by lra. rewrite P.
  rewrite Rplus_0_l, Rmult_1_l. apply lprod_ext. intros d' Hd'.
  assert (0 < v n d' (usel U d (get (c_out c) [n; d]) 0%nat d') (get (c_rep c) [n])).
  { apply Hv; auto; [apply (uw_kids _ _ Hw) in Hd'; tauto|apply (uw_sel _ _ Hw); auto; lia]. }
  apply (uw_kids _ _ Hw) in Hd' as [L E']; auto. rewrite G1 by auto. rewrite E'. unfold vmul. field. lra.
Qed.

Lemma layer_mpe_comp f1 f2 N Rn us1 us2 D0 S0 D1 S1 D2 S2 T v k1 k2 :
  uchain Rn us2 D0 S0 D1 S1 -> uchain Rn us1 D1 S1 D2 S2 ->
  (forall n, (n < N)%nat -> vpos D0 S0 Rn (v n)) -> 0 <= k2 ->
  layer_mpe f1 N Rn us1 D1 S1 D2 S2 T (fun n => evals us2 (v n)) k1 ->
  layer_mpe f2 N Rn us2 D0 S0 D1 S1 T v k2 ->
  layer_mpe (fun c => mbind (f1 c) f2) N Rn (us2 ++ us1) D0 S0 D2 S2 T v (k2 * k1).
Proof.
  intros C2 C1 Hv Hk L1 L2 c Hc Hm HT. destruct (L1 c Hc Hm HT) as (c1 & E1 & G1 & R1 & M1 & T1 & X1).
  destruct (L2 c1 G1 M1 T1) as (c2 & E2 & G2 & R2 & M2 & T2 & X2).
  exists c2. rewrite E1. cbn [mbind]. split; auto. split; auto. split; [congruence|]. split; auto. split; auto.
  intros n h Hn Hh. specialize (X2 n h Hn Hh). rewrite R1 in X2. eapply Rle_trans; [exact X2|]. rewrite Rmult_assoc. apply Rmult_le_compat_l; auto.
  set (h1 := fun d o r => evals us2 (vmul h (v n)) d o r / evals us2 (v n) d o r).
  specialize (X1 n h1 Hn). eapply Rle_trans; [apply X1|].
  - intros d s r Hd Hs Hr. apply (ratio_nn Rn us2 D0 S0 D1 S1); auto.
  - apply Req_le. f_equal. apply rprod_ext. intros d Hd. destruct Hc as (Hn' & So & Go & Sr & Gr).
    rewrite !evals_app. f_equal. eapply (evals_ext Rn us1); eauto.
    intros d' s r Hd' Hs Hr. unfold vmul at 1. unfold h1.
    assert (0 < evals us2 (v n) d' s r) by (eapply (evals_pos Rn us2); eauto). field. lra.
Qed.
Lemma layer_mpe_ext f g N Rn us D0 S0 D1 S1 T v k :
  (forall c, cgood c N D1 S1 Rn -> f c = g c) -> layer_mpe f N Rn us D0 S0 D1 S1 T v k -> layer_mpe g N Rn us D0 S0 D1 S1 T v k.
Proof. intros E L c Hc Hm HT. rewrite <- E by auto. apply L; auto. Qed.
Lemma layer_mpe_vext f N Rn us D0 S0 D1 S1 T v v' k : uchain Rn us D0 S0 D1 S1 ->
  (forall n, (n < N)%nat -> vagree D0 S0 Rn (v n) (v' n)) ->
  layer_mpe f N Rn us D0 S0 D1 S1 T v k -> layer_mpe f N Rn us D0 S0 D1 S1 T v' k.
Proof.
  intros Hc Hv L c Gc Hm HT. destruct (L c Gc Hm HT) as (c' & E & G & R1 & M1 & T1 & X). exists c'.
  do 5 (split; auto). intros n h Hn Hh. eapply Rle_trans; [apply X; auto|]. apply Req_le. f_equal. apply rprod_ext. intros d Hd.
  destruct Gc as (_ & _ & Go & _ & Gr).
  rewrite (evals_ext Rn us D0 S0 D1 S1 (v n) (v' n)); auto.
  rewrite (evals_ext Rn us D0 S0 D1 S1 (vmul h (v n)) (vmul h (v' n))); auto.
  intros d' s r Hd' Hs Hr. unfold vmul. rewrite Hv; auto.
Qed.

(** The number of ways to pick one product at every sum node of a layer. *)
Definition layer_picks (l : layer) : nat :=
  match l with
  | LEin L => (sin L * sin L) ^ einsum_features_out L
  | LLin L => sin L ^ linsum_features_out L
  | LLin2 L | LSum L => sin L ^ nf L
  | LRoot _ => 1
  end.
Definition layers_picks (ls : list layer) : nat := fold_right (fun l n => layer_picks l * n)%nat 1%nat ls.

Lemma layer_sample_mpe Rn D S l N ca v T : layer_ok Rn D S l -> (0 < N)%nat -> T <> 0 -> layer_cached l N ca v ->
  (forall n, (n < N)%nat -> vpos D S Rn (v n)) ->
  layer_mpe (layer_sample l ca) N Rn (layer_us T S l) D S (layer_dout l) (layer_sout S l) T v (INR (layer_picks l)).
Proof.
  intros Hok HN HT Hca Hv.
  destruct l as [L|L|L|L|D']; cbn [layer_ok layer_us layer_dout layer_sout layer_sample layer_cached layer_picks] in *.
  - destruct Hok as [Hok (<- & <- & <-)]. pose proof Hok as (H1 & _ & _ & _ & H2 & _). rewrite pow_INR.
    apply (sampler_mpe _ N (nrep L) (einsum_u L T) v T); auto.
    + apply einsum_u_wf; auto. + cbn. nia. + apply einsum_sampler; auto.
  - destruct Hok as [Hok (<- & <- & <-)]. pose proof Hok as (H1 & _ & _). rewrite pow_INR.
    apply (sampler_mpe _ N (nrep L) (linsum_u L T) v T); auto.
    + apply linsum_u_wf; auto. + apply linsum_sampler; auto.
  - destruct Hok as [Hok (He & <- & <- & <-)]. pose proof Hok as (H1 & _ & _).
    pose proof (sum_u_wf (nrep L) L T H1) as Hw1. pose proof (pairprod_u_wf (nrep L) (nf L) (sout L)) as Hw2.
    assert (EF: linsum_features_out L = uDout (pairprod_u (nf L) (sout L))).
    { cbn. unfold linsum_features_out, linsum_pad. rewrite div2_half. reflexivity. }
    apply (layer_mpe_ext (fun c => mbind (Ret (pair_ctx c)) (linsum2_core L ca))).
    { intros c Hc. cbn [mbind]. symmetry. eapply linsum2_sample_eq; eauto. }
    rewrite <- (Rmult_1_r (INR _)).
    apply (layer_mpe_comp _ _ N (nrep L) [pairprod_u (nf L) (sout L)] [sum_u L T] (nf L) (sin L) (nf L) (sout L)).
    + cbn [uchain]. auto.
    + cbn [uchain]. auto.
    + auto.
    + apply pos_INR.
    + rewrite EF. apply (route_mpe (fun c => Ret (pair_ctx c)) N (nrep L) (pairprod_u (nf L) (sout L))); auto.
      * intros n Hn. eapply (evals_pos (nrep L) [sum_u L T]); [|apply Hv; auto]. cbn [uchain]. auto.
      * intros c Hc. rewrite <- EF in Hc. exists (pair_ctx c). split; auto.
        pose proof (pair_ctx_good L c N (nrep L) He Hc). auto 10.
    + rewrite pow_INR. apply (sampler_mpe _ N (nrep L) (sum_u L T) v T); auto. apply linsum2_sampler; auto.
  - destruct Hok as [Hok (<- & <- & <-)]. pose proof Hok as (H1 & _). rewrite pow_INR.
    apply (sampler_mpe _ N (nrep L) (sum_u L T) v T); auto.
    + apply sum_u_wf; auto. + apply sum_sampler; auto.
  - subst D'. change (INR 1) with 1. apply (route_mpe (rootprod_sample D) N Rn (rootprod_u D S) v T); auto.
    + apply rootprod_u_wf.
    + intros c Hc. cbn [rootprod_u uDout uSout uDin uSin usel upar] in *.
      destruct (@rootprod_sample_ok V D S N Rn c Hc) as (c' & E & G & H1 & H2 & H3 & H4).
      exists c'. auto 10.
Qed.

Theorem sample_layers_mpe Rn ls : forall D S D' S' N cs v T, layers_ok Rn ls D S D' S' -> (0 < N)%nat -> T <> 0 ->
  layers_cached T Rn D S ls cs N v -> (forall n, (n < N)%nat -> vpos D S Rn (v n)) ->
  layer_mpe (sample_layers (combine ls cs)) N Rn (layers_us T S ls) D S D' S' T v (INR (layers_picks ls)).
Proof.
  induction ls as [|l ls IH]; intros D S D' S' N cs v T Hok HN HT Hca Hv.
  - destruct Hok as [<- <-]. destruct cs; [|destruct Hca]. cbn [combine layers_us layers_picks fold_right].
    intros c Hc Hm HT'. exists c. split; [reflexivity|]. do 4 (split; auto). intros n h Hn Hh. change (INR 1) with 1. rewrite Rmult_1_l.
    apply Req_le. apply rprod_ext. intros d Hd. destruct Hc as (Hn' & So & Go & Sr & Gr). unfold vmul, evals. simpl.
    assert (0 < v n d (get (c_out c) [n; d]) (get (c_rep c) [n])) by (apply Hv; auto). field. lra.
  - destruct cs as [|ca cs]; [destruct Hca|]. cbn [layers_ok layers_cached combine layers_us layers_picks fold_right] in *. fold (layers_picks ls).
    destruct Hok as [H1 H2]. destruct Hca as [(v' & Hc1 & Ev) Hc2].
    apply (layer_mpe_ext (fun c => mbind (sample_layers (combine ls cs) c) (layer_sample l ca))); [reflexivity|].
    pose proof (layer_chain T _ _ _ _ H1) as C1. rewrite mult_INR.
    eapply layer_mpe_comp; [exact C1|apply layers_chain; exact H2|auto|apply pos_INR| |].
    + apply IH; auto. intros n Hn. eapply evals_pos; [exact C1|auto].
    + apply (layer_mpe_vext _ _ _ _ _ _ _ _ _ v'); auto.
      { intros n Hn d s r Hd Hs Hr. symmetry. apply Ev; auto. }
      apply (layer_sample_mpe Rn D S l N ca v' T); auto.
      intros n Hn d s r Hd Hs Hr. rewrite <- Ev; auto. apply Hv; auto.
Qed.

Variable E : einet V.
Hypothesis HE : einet_ok E.
Let lf := leaf_of (e_leaf E).

(** The class chosen has the largest weight. *)
Lemma class_step_mpe a : a_class a = CNone -> (0 < num_samples a)%nat -> a_tsum a <> 0 -> a_mpe a = true ->
  let N := num_samples a in
  exists c, class_step E a (init_ctx a) = Ret (N, c) /\ cgood c N 1 (e_K E) (e_R E) /\ c_mpe c = true /\ c_tsum c = a_tsum a /\
  forall n y, (n < N)%nat -> (y < e_K E)%nat -> cweight E a n y <= cweight E a n (get (c_out c) [n; 0%nat]).
Proof.
  intros Hcl HN HT Hm N. pose proof (eo_R E HE) as HR. pose proof (eo_K E HE) as HK.
  unfold class_step, cweight. rewrite Hcl. fold N in HN |- *. destruct (Nat.ltb_spec 1 (e_K E)) as [HK1|HK1].
  - destruct (eo_root E HE HK1) as (s & Es & Hok & S1 & S2 & S3 & S4). unfold wroot. rewrite Es. cbn [attr lift mbind].
    pose proof (init_ctx_good a 1 1 ltac:(lia) ltac:(lia)) as G. fold N in G.
    pose proof (@sum_sampler V s N None vone (a_tsum a) Hok HT ltac:(left; auto)) as SS.
    pose proof (sum_u_wf (nrep s) s (a_tsum a) ltac:(destruct Hok; auto)) as Hw.
    rewrite <- S3 in G at 2.
    destruct (SS (init_ctx a)) as (lw & g & Ef & Hlw & Hg); [cbn [sum_u uDout uSout]; rewrite S1, S4; exact G|reflexivity|].
    cbn [sum_u uDout uK uSout uDin usel upar] in Hlw, Hg. rewrite S1, S2 in *.
    destruct (choose_mpe (V := V) (init_ctx a) lw N _ _ _ Hm Hlw ltac:(lia)) as (t & Et & St & Gt).
    destruct (Hg t St) as (i & Ei & Si & Gi); [intros; apply Gt; auto|].
    rewrite Ef, Et. cbn [mbind]. rewrite Ei. cbn [mbind]. eexists. split; [reflexivity|].
    split; [|split; [exact Hm|]; split; [reflexivity|]].
    + destruct G as (K1 & K2 & K3 & K4 & K5). split; [exact K1|]. split; [exact Si|]. split.
      * intros n d Hn Hd. cbn [set_out c_out]. rewrite Gi by auto. apply Gt; auto.
      * split; [exact K4|]. intros n Hn. cbn. lia.
    + intros n y Hn Hy. cbn [set_out c_out]. rewrite Gi by lia. destruct (Gt n 0%nat Hn ltac:(lia)) as [B1 B2]. specialize (B2 y Hy).
      cbn [init_ctx c_out c_rep full get] in B2.
      change (vone n) with (vone 0%nat) in B2. rewrite !(upost_one 1) in B2; auto; try (cbn; lia); try (rewrite S4 in Hw; exact Hw); try (cbn; rewrite ?S1, ?S3; lia).
      cbn [sum_u uW] in B2. unfold linsum_w in B2. rewrite S2 in B2. exact B2.
  - eexists. split; [reflexivity|]. split; [apply init_ctx_good; auto|]. split; [exact Hm|]. split; [reflexivity|]. intros. lra.
Qed.

Lemma mixing_step_mpe N T cs (v : nat -> nat -> nat -> R) c : T <> 0 ->
  mcached E N (ca_mixing cs) v ->
  (forall n y r, (n < N)%nat -> (y < e_K E)%nat -> (r < e_R E)%nat -> 0 < v n y r) ->
  cgood c N 1 (e_K E) (e_R E) -> c_tsum c = T -> c_mpe c = true ->
  exists c', mixing_step E cs N c = Ret c' /\ cgood c' N 1 (e_K E) (e_R E) /\ c_mpe c' = true /\ c_tsum c' = T /\ c_out c' = c_out c /\
  forall n (h : nat -> R), (n < N)%nat -> (forall r, (r < e_R E)%nat -> 0 <= h r) ->
    let y := get (c_out c) [n; 0%nat] in
    h (get (c_rep c') [n]) <= INR (e_R E) *
       (rsum (e_R E) (fun r => emix E T y r * v n y r * h r) / rsum (e_R E) (fun r => emix E T y r * v n y r)).
Proof.
  intros HT Hca Hv Hc Et Em. unfold mixing_step. destruct (Nat.ltb_spec 1 (e_R E)) as [HR|HR].
  - destruct (eo_mix E HE HR) as (m & Emx & Hok & Hs1 & Hs2). rewrite Emx. cbn [attr lift mbind].
    destruct (Hca HR m Emx) as (v' & Hca' & Ev'). pose proof Hok as (HS & _ & _).
    pose proof Hc as Hc0. rewrite <- Hs2 in Hc0.
    destruct (@mixing_sampler V m N _ (ca_mixing cs) v' T c Hok HT Hca' Hc0 Et) as (lw & Ef & Hlw).
    pose proof Hc as (K1 & K2 & K3 & K4 & K5).
    destruct (choose_mpe (V := V) c lw N _ _ _ Em Hlw HS) as (t & Ec & St & Gt).
    rewrite Ef, Ec. cbn [mbind set_out c_out].
    unfold view. rewrite St. cbn [numel]. rewrite !Nat.mul_1_r, Nat.eqb_refl. cbn [lift mbind]. eexists. split; [reflexivity|].
    match goal with |- cgood (mkCtx _ _ ?x _ _) _ _ _ _ /\ _ => assert (Gv: forall n, (n < N)%nat -> get x [n] = get t [n; 0%nat]) end.
    { intros n Hn. cbn [get ravel numel unravel]. rewrite !Nat.mul_1_r, Nat.add_0_r, Nat.div_1_r, Nat.mod_1_r. reflexivity. }
    split; [|split; [exact Em|]; split; [exact Et|]; split; [reflexivity|]].
    + split; [exact K1|]. split; [exact K2|]. split; [exact K3|]. split; [reflexivity|].
      intros n Hn. cbn [c_rep]. rewrite Gv by auto. rewrite <- Hs1. apply Gt; auto.
    + intros n h Hn Hh. set (y := get (c_out c) [n; 0%nat]). cbn [c_rep]. rewrite Gv by auto. destruct (Gt n 0%nat Hn ltac:(lia)) as [B1 B2]. fold y in B2.
      set (r := get t [n; 0%nat]) in *.
      assert (EM: forall r, emix E T y r = mixing_w m T y r).
      { intros q. unfold emix. rewrite Emx. destruct (Nat.ltb_spec 1 (e_R E)); [auto|lia]. }
      assert (Hy: (y < e_K E)%nat) by (apply K3; auto).
      assert (EP: forall q, (q < e_R E)%nat -> mixpost m T (v' n) y q = emix E T y q * v n y q / rsum (e_R E) (fun r => emix E T y r * v n y r)).
      { intros q Hq. unfold mixpost. rewrite Hs1. rewrite EM, Ev' by auto. f_equal. apply rsum_ext. intros j Hj. rewrite EM, Ev' by auto. reflexivity. }
      assert (PD: 0 < rsum (e_R E) (fun r => emix E T y r * v n y r)).
      { apply rsum_pos; [lia|]. intros q Hq. apply Rmult_lt_0_compat; [apply (emix_pos E HE); auto|auto]. }
      rewrite Hs1 in B1, B2.
      assert (PP: forall q, (q < e_R E)%nat -> 0 <= mixpost m T (v' n) y q).
      { intros q Hq. rewrite EP by auto. unfold Rdiv. apply Rmult_le_pos; [|left; apply Rinv_0_lt_compat; auto].
        left. apply Rmult_lt_0_compat; [apply (emix_pos E HE); auto|auto]. }
      assert (SP: rsum (e_R E) (fun q => mixpost m T (v' n) y q) = 1).
      { rewrite (rsum_ext _ _ (fun q => emix E T y q * v n y q / rsum (e_R E) (fun r => emix E T y r * v n y r))) by auto.
        unfold Rdiv. rewrite rsum_scal_r. apply Rinv_r. lra. }
      pose proof (max_share (e_R E) (fun q => mixpost m T (v' n) y q) r SP) as MS. cbv beta in MS. specialize (MS B2).
      replace (rsum (e_R E) (fun r0 => emix E T y r0 * v n y r0 * h r0) / rsum (e_R E) (fun r0 => emix E T y r0 * v n y r0))
        with (rsum (e_R E) (fun q => mixpost m T (v' n) y q * h q)).
      2:{ unfold Rdiv. rewrite <- rsum_scal_r. apply rsum_ext. intros q Hq. rewrite EP by auto. unfold Rdiv. ring. }
      pose proof (rsum_one_term (e_R E) r (fun q => mixpost m T (v' n) y q * h q) B1) as Q. cbv beta in Q.
      specialize (Q ltac:(intros j Hj; apply Rmult_le_pos; auto)).
      pose proof (Rmult_le_compat_r _ _ _ (Hh r B1) MS) as A1. pose proof (Rmult_le_compat_l _ _ _ (pos_INR (e_R E)) Q) as A2. lra.
  - pose proof (eo_R E HE). assert (ER: e_R E = 1%nat) by lia. exists c. split; auto. split; auto. split; auto. split; auto. split; auto.
    intros n h Hn Hh. set (y := get (c_out c) [n; 0%nat]). rewrite ER, !rsum_S, !rsum_0. change (INR 1) with 1.
    pose proof Hc as (_ & _ & H3 & _ & H5). specialize (H5 n Hn). rewrite ER in H5. assert (Z: get (c_rep c) [n] = 0%nat) by lia. rewrite Z.
    assert (Hy: (y < e_K E)%nat) by (apply H3; auto).
    assert (0 < v n y 0%nat) by (apply Hv; auto; lia).
    pose proof (emix_pos E HE T y 0%nat Hy ltac:(lia)). apply Req_le. field. lra.
Qed.

(** Everything mpe() picks on the way down. *)
Definition picks : nat := e_R E * layers_picks (e_layers E).

Lemma walk_mpe a cs v : a_class a = CNone -> (0 < num_samples a)%nat -> a_mpe a = true -> a_tsum a <> 0 ->
  let N := num_samples a in let T := a_tsum a in
  cs_ok E T N cs v -> (forall n, (n < N)%nat -> vpos (leaf_out E) (e_L E) (e_R E) (v n)) ->
  exists c, walk E a cs = Ret c /\ cgood c N (leaf_out E) (e_L E) (e_R E) /\
  forall n, (n < N)%nat -> exists y, (y < e_K E)%nat /\ (forall y', (y' < e_K E)%nat -> cweight E a n y' <= cweight E a n y) /\
  forall h, vnn (leaf_out E) (e_L E) (e_R E) h ->
    rprod (leaf_out E) (fun d => h d (get (c_out c) [n; d]) (get (c_rep c) [n])) <= INR picks *
      (rsum (e_R E) (fun r => emix E T y r * evals (us E T) (vmul h (v n)) 0%nat y r) /
       rsum (e_R E) (fun r => emix E T y r * evals (us E T) (v n) 0%nat y r)).
Proof.
  intros Hcl HN Hm HT N T [Hl Hmx] Hv.
  destruct (class_step_mpe a Hcl HN HT Hm) as (c1 & E1 & G1 & M1 & T1 & X1). fold N in E1, G1, X1, HN. fold T in T1, HT.
  set (vm := fun n y r => evals (us E T) (v n) 0%nat y r).
  assert (Hvm: forall n y r, (n < N)%nat -> (y < e_K E)%nat -> (r < e_R E)%nat -> 0 < vm n y r).
  { intros n y r Hn Hy Hr. apply (evals_root_pos E HE T (v n) y r); auto. }
  destruct (mixing_step_mpe N T cs vm c1 HT Hmx Hvm G1 T1 M1) as (c2 & E2 & G2 & M2 & T2 & O2 & X2).
  destruct (sample_layers_mpe (e_R E) (e_layers E) (leaf_out E) (e_L E) 1 (e_K E) N (ca_layers cs) v T (eo_layers E HE) HN HT Hl Hv c2 G2 M2 T2)
    as (c3 & E3 & G3 & R3 & M3 & T3 & X3).
  unfold walk. rewrite E1. cbn [mbind fst snd]. rewrite E2. cbn [mbind]. exists c3. split; auto. split; auto.
  intros n Hn. set (y := get (c_out c1) [n; 0%nat]). exists y.
  assert (Hy: (y < e_K E)%nat) by (destruct G1 as (_ & _ & Go & _); apply Go; auto).
  split; auto. split; [intros; apply X1; auto|].
  intros h Hh. rewrite R3. specialize (X3 n h Hn Hh). eapply Rle_trans; [exact X3|]. rewrite rprod_S, rprod_0, Rmult_1_l. rewrite O2. fold y.
  specialize (X2 n (fun r => evals (us E T) (vmul h (v n)) 0%nat y r / vm n y r) Hn). cbv zeta in X2. fold y in X2.
  pose proof (layers_chain T _ _ _ _ _ _ (eo_layers E HE)) as C.
  assert (P: forall r, (r < e_R E)%nat -> 0 <= evals (us E T) (vmul h (v n)) 0%nat y r / vm n y r).
  { intros r Hr. unfold vm, us. apply (ratio_nn (e_R E) _ (leaf_out E) (e_L E) 1 (e_K E)); auto. }
  specialize (X2 P). unfold picks. rewrite mult_INR, (Rmult_comm (INR (e_R E))), Rmult_assoc. apply Rmult_le_compat_l; [apply pos_INR|].
  eapply Rle_trans; [exact X2|]. apply Req_le. f_equal. f_equal. apply rsum_ext. intros r Hr. pose proof (Hvm n y r Hn Hy Hr) as Q. unfold vm in *. field. lra.
Qed.

(** The completed row, and its value. *)
Definition fillin (z : pdata V) (w : nat -> nat -> V) : pdata V := fun c f => match z c f with Some v => Some v | None => Some (w c f) end.

(** What the way down returns, when the caches hold the values of the rows [z]. *)
Lemma core_mpe a cs v (z : nat -> pdata V) : a_class a = CNone -> a_mpe a = true -> a_tsum a = 1 -> let N := num_samples a in
  (0 < N)%nat -> lf_ctx lf = true -> forall md, lf_mode lf = Some md -> groups_agree E -> cs_ok E (a_tsum a) N cs v ->
  (forall n d s r, (n < N)%nat -> (d < leaf_out E)%nat -> (s < e_L E)%nat -> (r < e_R E)%nat ->
     v n d s r = leafval (fnet E) (lval (pdf lf) (z n)) d s r) ->
  exists t, core E a cs = Ret t /\ shape t = [N; e_C E; e_F E] /\
  forall n, (n < N)%nat -> exists y out r, (y < e_K E)%nat /\ (r < e_R E)%nat /\ (forall d, (d < leaf_out E)%nat -> (out d < e_L E)%nat) /\
    (forall y', (y' < e_K E)%nat -> cweight E a n y' <= cweight E a n y) /\
    (forall c f, (c < e_C E)%nat -> (f < e_F E)%nat -> get t [n; c; f] = md [c; f; out (fgrp E r f); r]) /\
    forall q : leaves, (forall c f l r, 0 <= q c f l r) ->
      rprod (e_C E) (fun c => rprod (e_F E) (fun f => q c f (out (fgrp E r f)) r / lval (pdf lf) (z n) c f (out (fgrp E r f)) r)) *
      neteval (fnet E) (lval (pdf lf) (z n)) y <= INR picks * neteval (fnet E) q y.
Proof.
  intros Hcl Hm HT N HN Hctx md Hmd HG Hcs Hv.
  assert (Pv: forall n, (n < N)%nat -> vpos (leaf_out E) (e_L E) (e_R E) (v n)).
  { intros n Hn d s r Hd Hs Hr. rewrite Hv by auto. apply (leafval_pos (fnet E)); auto. intros. apply lval_pos. }
  destruct (walk_mpe a cs v Hcl HN Hm ltac:(lra) Hcs Pv) as (c & Ew & Gc & X). rewrite HT in X. fold N in Gc, X.
  pose proof (eo_lC E HE) as EC. pose proof (eo_lF E HE) as EF.
  pose proof (eo_lL E HE) as EL'. pose proof (eo_lR E HE) as ER. fold lf in EC, EF, EL', ER.
  assert (HGr: forall r f, (r < lf_R lf)%nat -> (f < lf_F lf)%nat -> (sgrp E r f < leaf_out E)%nat).
  { rewrite EF, ER. intros. apply sgrp_lt; auto. }
  destruct (bottom_routes E HE c N Hctx HN Gc) as (k & Hk & Eb).
  pose proof Gc as Gc'. rewrite <- EL', <- ER in Gc'.
  destruct (leaf_mode_prog lf k c N (leaf_out E) (sgrp E) md Gc' HGr Hk Hmd) as (t & Et & St & Gt). rewrite EC, EF in St, Gt.
  exists t. split. { unfold core. rewrite Ew. cbn [mbind]. rewrite Eb, Hm. cbn [orb]. exact Et. }
  split; auto.
  intros n Hn. destruct (X n Hn) as (y & Hy & Hmax & X'). pose proof Gc as (_ & _ & Gout & _ & Grep).
  exists y, (fun d => get (c_out c) [n; d]), (get (c_rep c) [n]).
  split; auto. split; [apply Grep; auto|]. split; [intros d Hd; apply Gout; auto|]. split; auto. split.
  - intros ch f Hch' Hf. rewrite Gt by auto. rewrite HG by (auto; apply Grep; auto). reflexivity.
  - intros q Hq. set (z0 := z n). set (p0 := lval (pdf lf) z0).
    assert (Pp: forall c f l r, 0 < p0 c f l r) by (intros; apply lval_pos).
    set (h := leafval (fnet E) (fun c f l r => q c f l r / p0 c f l r)).
    assert (Hh: vnn (leaf_out E) (e_L E) (e_R E) h).
    { intros d s r Hd Hs Hr. unfold h, leafval. apply rprod_nonneg. intros f Hf. destruct (Nat.eqb _ _); [|lra]. apply rprod_nonneg. intros ch Hch'.
      unfold Rdiv. apply Rmult_le_pos; auto. left. apply Rinv_0_lt_compat. auto. }
    specialize (X' h Hh). set (rr := get (c_rep c) [n]) in *. set (out := fun d => get (c_out c) [n; d]).
    assert (Hr: (rr < e_R E)%nat) by (apply Grep; auto).
    assert (LP: rprod (leaf_out E) (fun d => h d (get (c_out c) [n; d]) rr) =
       rprod (e_C E) (fun c => rprod (e_F E) (fun f => q c f (out (fgrp E rr f)) rr / p0 c f (out (fgrp E rr f)) rr))).
    { unfold h, leafval. cbn [fnet net_with nF nC ngroup]. rewrite (rprod_swap (e_C E)).
      rewrite (rprod_group (e_F E) (leaf_out E) (fgrp E rr) (fun f => rprod (e_C E) (fun i => q i f (out (fgrp E rr f)) rr / p0 i f (out (fgrp E rr f)) rr))).
      2:{ intros f Hf. apply fgrp_lt; auto. }
      apply rprod_ext. intros d Hd. apply rprod_ext. intros f Hf. destruct (Nat.eqb_spec (fgrp E rr f) d) as [<-|]; auto. }
    rewrite LP in X'.
    assert (EN: rsum (e_R E) (fun r => emix E 1 y r * evals (us E 1) (v n) 0%nat y r) = neteval (fnet E) p0 y).
    { unfold neteval. cbn [fnet net_with nR nmix nls]. apply rsum_ext. intros r Hr'. f_equal.
      eapply (evals_ext (e_R E)); [apply (layers_chain 1 _ _ _ _ _ _ (eo_layers E HE))| | | |]; auto. intros d s j Hd Hs Hj. apply Hv; auto. }
    assert (EQ: rsum (e_R E) (fun r => emix E 1 y r * evals (us E 1) (vmul h (v n)) 0%nat y r) = neteval (fnet E) q y).
    { unfold neteval. cbn [fnet net_with nR nmix nls]. apply rsum_ext. intros r Hr'. f_equal.
      eapply (evals_ext (e_R E)); [apply (layers_chain 1 _ _ _ _ _ _ (eo_layers E HE))| | | |]; auto. intros d s j Hd Hs Hj.
      unfold vmul. rewrite Hv by auto. unfold h, leafval. rewrite <- rprod_mult. apply rprod_ext. intros f Hf. fold z0 p0.
      destruct (Nat.eqb _ _); [|ring]. rewrite <- rprod_mult. apply rprod_ext. intros ch Hch'. field. apply Rgt_not_eq. apply Pp. }
    rewrite EN, EQ in X'.
    assert (PN: 0 < neteval (fnet E) p0 y) by (apply neteval_pos; auto; apply fnet_wf; auto).
    pose proof (Rmult_le_compat_r _ _ _ (Rlt_le _ _ PN) X') as Z.
    replace (INR picks * neteval (fnet E) q y) with (INR picks * (neteval (fnet E) q y / neteval (fnet E) p0 y) * neteval (fnet E) p0 y) by (field; lra).
    exact Z.
Qed.

Definition mpe_row (md : list nat -> V) (z : pdata V) (n : nat) (a : sargs) (x : nat -> nat -> option V) : Prop :=
  exists y out r, (y < e_K E)%nat /\ (r < e_R E)%nat /\ (forall d, (d < leaf_out E)%nat -> (out d < e_L E)%nat) /\
    (forall y', (y' < e_K E)%nat -> cweight E a n y' <= cweight E a n y) /\
    (forall c f, (c < e_C E)%nat -> (f < e_F E)%nat -> x c f = fillin z (fun c f => md [c; f; out (fgrp E r f); r]) c f) /\
    forall q : leaves, (forall c f l r, 0 <= q c f l r) ->
      rprod (e_C E) (fun c => rprod (e_F E) (fun f => q c f (out (fgrp E r f)) r / lval (pdf lf) z c f (out (fgrp E r f)) r)) *
      neteval (fnet E) (lval (pdf lf) z) y <= INR picks * neteval (fnet E) q y.

Theorem mpe_evidence a e : a_ev a = Some e -> a_class a = CNone -> a_mpe a = true -> a_tsum a = 1 -> let N := num_samples a in
  check_args E a = Ok tt -> input_ok E N e (a_ms a) -> (0 < N)%nat -> lf_ctx lf = true -> forall md, lf_mode lf = Some md ->
  groups_agree E ->
  exists o, sample E a = Ret o /\ shape o = shape e /\ forall n, (n < N)%nat -> mpe_row md (row e (a_ms a) n) n a (entry o n).
Proof.
  intros Hev Hcl Hm HT N Hch Hin HN Hctx md Hmd HG.
  destruct (forward_full_rep E HE N e (a_ms a) Hin) as (z & cs & Ey & _ & _ & v & Hv & Hc1 & Hc2). fold lf in Hv.
  assert (Ec: ev_caches E a = Ok cs) by (unfold ev_caches; rewrite Hev, Ey; auto).
  rewrite (sample_core E a _ Hch Ec).
  assert (Hcs: cs_ok E (a_tsum a) N cs v).
  { rewrite HT. split; auto. intros HR m Em. eexists. split; [apply Hc2; auto|]. reflexivity. }
  destruct (core_mpe a cs v (row e (a_ms a)) Hcl Hm HT HN Hctx md Hmd HG Hcs) as (t & Co & St & X).
  { intros. apply Hv; auto. }
  rewrite Co. cbn [mbind]. unfold finish. rewrite Hev.
  destruct (merge_ok E N e (a_ms a) t Hin St) as (o & Eo & So & Go). rewrite Eo. cbn [lift]. exists o. split; auto. split; auto.
  intros n Hn. destruct (X n Hn) as (y & out & r & H1 & H2 & H3 & H4 & H5 & H6). exists y, out, r. do 4 (split; auto). split; auto.
  intros c f Hc Hf. rewrite Go by auto. unfold fillin. destruct (row e (a_ms a) n c f); auto. rewrite H5 by auto. reflexivity.
Qed.
Theorem mpe_free a : a_ev a = None -> a_class a = CNone -> a_mpe a = true -> a_tsum a = 1 -> let N := num_samples a in
  check_args E a = Ok tt -> (0 < N)%nat -> lf_ctx lf = true -> forall md, lf_mode lf = Some md -> groups_agree E ->
  exists o, sample E a = Ret o /\ shape o = [N; e_C E; e_F E] /\ forall n, (n < N)%nat -> mpe_row md (fun _ _ => None) n a (entry o n).
Proof.
  intros Hev Hcl Hm HT N Hch HN Hctx md Hmd HG.
  assert (Ec: ev_caches E a = Ok (no_caches E)) by (unfold ev_caches; rewrite Hev; auto).
  rewrite (sample_core E a _ Hch Ec).
  destruct (core_mpe a (no_caches E) vone (fun _ _ _ => None) Hcl Hm HT HN Hctx md Hmd HG (no_caches_ok E HE _ _)) as (t & Co & St & X).
  { intros n d s r Hn Hd Hs Hr. unfold vone, leafval, lval. symmetry. transitivity (rprod (e_F E) (fun _ => 1)); [|apply rprod_one].
    apply rprod_ext. intros f Hf. destruct (Nat.eqb _ _); auto. apply rprod_one. }
  rewrite Co. cbn [mbind]. unfold finish. rewrite Hev. exists (tmap Some t). split; auto. split; auto.
  intros n Hn. destruct (X n Hn) as (y & out & r & H1 & H2 & H3 & H4 & H5 & H6). exists y, out, r. do 4 (split; auto). split; auto.
  intros c f Hc Hf. unfold entry. cbn [tmap shape get]. rewrite St. cbn [ix]. rewrite H5 by auto. reflexivity.
Qed.
End Approx.
