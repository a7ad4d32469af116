(** The stack of layers of an Einet is a chain of circuit layers: forward pass and sampling law. *)
From Coq Require Import List Arith Lia Bool Reals Lra.
Import ListNotations.
From Verif Require Import Base RSum Num Tensor Prob Layers Circuit Net RefFwd RefSample RefLaw Leaf Perm RefLeaf RefLeafS Einet.
Local Open Scope R_scope.
Local Arguments Nat.div : simpl never.
Local Arguments Nat.modulo : simpl never.
Local Arguments Nat.sub : simpl never.
Local Arguments Nat.mul : simpl never.
Local Arguments Nat.add : simpl never.

Definition layer_dout (l : layer) : nat :=
  match l with
  | LEin L => einsum_features_out L
  | LLin L | LLin2 L => linsum_features_out L
  | LSum L => nf L
  | LRoot _ => 1
  end.
Definition layer_sout (S : nat) (l : layer) : nat :=
  match l with LEin L | LLin L | LLin2 L | LSum L => sout L | LRoot _ => S end.
Definition layer_us (T : R) (S : nat) (l : layer) : list ulayer :=
  match l with
  | LEin L => [einsum_u L T]
  | LLin L => [linsum_u L T]
  | LLin2 L => [sum_u L T; pairprod_u (nf L) (sout L)]
  | LSum L => [sum_u L T]
  | LRoot D => [rootprod_u D S]
  end.
Definition dims (L : slay) (Rn D S : nat) : Prop := nf L = D /\ sin L = S /\ nrep L = Rn.
Definition layer_ok (Rn D S : nat) (l : layer) : Prop :=
  match l with
  | LEin L => einsum_ok L /\ dims L Rn D S
  | LLin L => linsum_ok L /\ dims L Rn D S
  | LLin2 L => linsum2_ok L /\ (nf L mod 2 = 0)%nat /\ dims L Rn D S
  | LSum L => sum_ok L /\ dims L Rn D S
  | LRoot D' => D' = D
  end.
Fixpoint layers_ok (Rn : nat) (ls : list layer) (D S D' S' : nat) : Prop :=
  match ls with
  | [] => D = D' /\ S = S'
  | l :: ls' => layer_ok Rn D S l /\ layers_ok Rn ls' (layer_dout l) (layer_sout S l) D' S'
  end.
Fixpoint layers_us (T : R) (S : nat) (ls : list layer) : list ulayer :=
  match ls with
  | [] => []
  | l :: ls' => layer_us T S l ++ layers_us T (layer_sout S l) ls'
  end.

Lemma layer_chain T Rn D S l : layer_ok Rn D S l -> uchain Rn (layer_us T S l) D S (layer_dout l) (layer_sout S l).
Proof.
  destruct l as [L|L|L|L|D']; cbn [layer_ok layer_us layer_dout layer_sout uchain].
  - intros [(H1 & _ & _ & _ & H2 & _) (<- & <- & <-)]. split; [apply einsum_u_wf; auto|]. auto.
  - intros [(H1 & _ & _) (<- & <- & <-)]. split; [apply linsum_u_wf; auto|]. auto.
  - intros [(H1 & _ & _) (He & <- & <- & <-)]. split; [apply sum_u_wf; auto|]. split; auto. split; auto.
    split; [apply pairprod_u_wf|]. split; auto. split; auto. split; [|reflexivity].
    cbn [pairprod_u uDout]. unfold linsum_features_out, linsum_pad. rewrite div2_half. reflexivity.
  - intros [(H1 & _) (<- & <- & <-)]. split; [apply sum_u_wf; auto|]. auto.
  - intros ->. split; [apply rootprod_u_wf|]. auto.
Qed.
Lemma layers_chain T Rn ls : forall D S D' S', layers_ok Rn ls D S D' S' -> uchain Rn (layers_us T S ls) D S D' S'.
Proof.
  induction ls as [|l ls IH]; cbn [layers_ok layers_us]; intros D S D' S' H; [exact H|].
  destruct H as [H1 H2]. apply uchain_app. exists (layer_dout l), (layer_sout S l). split; auto. apply layer_chain; auto.
Qed.

(** The cache of a layer holds its input values. *)
Definition layer_cached (l : layer) (N : nat) (ca : option cache) (v : nat -> vals) : Prop :=
  match l with
  | LEin L => einsum_cached L N ca v
  | LLin L => linsum_cached L N ca v
  | LLin2 L | LSum L => sum_cached L N ca v
  | LRoot _ => True
  end.
Lemma layer_cached_none l N : layer_cached l N None vone.
Proof. destruct l; simpl; auto; left; auto. Qed.

Lemma layer_forward_rep Rn D S l N x v : layer_ok Rn D S l -> trep x N D S Rn v ->
  exists y ca, layer_forward l x = Ok (y, ca) /\
    trep y N (layer_dout l) (layer_sout S l) Rn (fun n => evals (layer_us 1 S l) (v n)) /\ layer_cached l N ca v.
Proof.
  destruct l as [L|L|L|L|D']; cbn [layer_ok layer_us layer_dout layer_sout layer_forward layer_cached]; intros H Hx.
  - destruct H as [Hok (<- & <- & <-)].
    destruct (einsum_forward_rep L x N v Hok Hx) as (y & cl & cr & E & Hy & H1 & H2). rewrite E. cbn [bind].
    eexists. eexists. split; [reflexivity|]. split; [exact Hy|]. right. exists cl, cr. auto.
  - destruct H as [Hok (<- & <- & <-)].
    destruct (linsum_forward_rep L x N v Hok Hx) as (y & cl & cr & E & Hy & H1 & H2). rewrite E. cbn [bind].
    eexists. eexists. split; [reflexivity|]. split; [exact Hy|]. right. exists cl, cr. auto.
  - destruct H as [Hok (He & <- & <- & <-)].
    destruct (linsum2_forward_rep L x N v Hok Hx) as (y & E & Hy). rewrite E. cbn [bind].
    eexists. eexists. split; [reflexivity|]. split; [exact Hy|]. right. exists x. auto.
  - destruct H as [Hok (<- & <- & <-)].
    destruct (sum_forward_rep L x N v Hok Hx) as (y & E & Hy). rewrite E. cbn [bind].
    eexists. eexists. split; [reflexivity|]. split; [exact Hy|]. right. exists x. auto.
  - subst D'. destruct (rootprod_forward_rep D S x N Rn v Hx) as (y & E & Hy). rewrite E. cbn [bind].
    eexists. eexists. split; [reflexivity|]. split; [exact Hy|]. auto.
Qed.

(** The caches of a stack of layers hold the values computed from [v]. *)
Fixpoint layers_cached (T : R) (Rn D S : nat) (ls : list layer) (cs : list (option cache)) (N : nat) (v : nat -> vals) : Prop :=
  match ls, cs with
  | [], [] => True
  | l :: ls', ca :: cs' =>
      (exists v', layer_cached l N ca v' /\ forall n, (n < N)%nat -> vagree D S Rn (v n) (v' n)) /\
      layers_cached T Rn (layer_dout l) (layer_sout S l) ls' cs' N (fun n => evals (layer_us T S l) (v n))
  | _, _ => False
  end.

Lemma forward_layers_rep Rn ls : forall D S D' S' N x v, layers_ok Rn ls D S D' S' -> trep x N D S Rn v ->
  exists y cs, forward_layers ls x = Ok (y, cs) /\
    trep y N D' S' Rn (fun n => evals (layers_us 1 S ls) (v n)) /\ layers_cached 1 Rn D S ls cs N v.
Proof.
  induction ls as [|l ls IH]; cbn [layers_ok layers_us forward_layers]; intros D S D' S' N x v H Hx.
  - destruct H as [<- <-]. exists x, []. split; auto. split; [exact Hx|exact I].
  - destruct H as [H1 H2]. destruct (layer_forward_rep Rn D S l N x v H1 Hx) as (y & ca & E & Hy & Hca). rewrite E. cbn [bind].
    destruct (IH _ _ _ _ N y _ H2 Hy) as (z & cs & Ez & Hz & Hcs). rewrite Ez. cbn [bind].
    exists z, (ca :: cs). split; [reflexivity|]. split.
    + eapply trep_ext; [exact Hz|]. intros n Hn d s r _ _ _. rewrite evals_app. reflexivity.
    + cbn [layers_cached]. split; auto. exists v. split; auto. intros n Hn d s r _ _ _; reflexivity.
Qed.

Lemma layers_cached_none T Rn N ls : forall D S D' S' v, layers_ok Rn ls D S D' S' ->
  (forall n, (n < N)%nat -> vagree D S Rn (v n) (fun _ _ _ => 1)) ->
  layers_cached T Rn D S ls (map (fun _ => None) ls) N v.
Proof.
  induction ls as [|l ls IH]; cbn [layers_ok layers_cached map]; intros D S D' S' v H Hv; auto.
  destruct H as [H1 H2]. split.
  - exists vone. split; [apply layer_cached_none|]. exact Hv.
  - eapply IH; [exact H2|]. intros n Hn. eapply evals_one; [apply layer_chain; eauto|auto].
Qed.

Section Law.
Context {V : Type}.
Variable EL : list nat -> (V -> R) -> R.
Hypothesis HEL : leaf_expectation EL.

Lemma layer_law_vext f N Rn us D0 S0 D1 S1 T v v' : uchain Rn us D0 S0 D1 S1 ->
  (forall n, (n < N)%nat -> vagree D0 S0 Rn (v n) (v' n)) ->
  layer_law EL f N Rn us D0 S0 D1 S1 T v -> layer_law EL f N Rn us D0 S0 D1 S1 T v'.
Proof.
  intros Hc Hv L c Gc Hm HT. destruct (L c Gc Hm HT) as [O E]. split; auto. intros h. rewrite E.
  unfold tprod. apply rprod2_ext. intros n d Hn Hd. destruct Gc as (_ & _ & Go & _ & Gr).
  rewrite (evals_ext Rn us D0 S0 D1 S1 (v n) (v' n)); auto.
  rewrite (evals_ext Rn us D0 S0 D1 S1 (vmul (h n) (v n)) (vmul (h n) (v' n))); auto.
  intros d' s r Hd' Hs Hr. unfold vmul. rewrite Hv; auto.
Qed.

Lemma layer_sample_law Rn D S l N ca v T : layer_ok Rn D S l -> (0 < N)%nat -> T <> 0 -> layer_cached l N ca v ->
  (forall n, (n < N)%nat -> vpos D S Rn (v n)) ->
  layer_law EL (layer_sample l ca) N Rn (layer_us T S l) D S (layer_dout l) (layer_sout S l) T v.
Proof.
  intros Hok HN HT Hca Hv.
  destruct l as [L|L|L|L|D']; cbn [layer_ok layer_us layer_dout layer_sout layer_sample layer_cached] in *.
  - destruct Hok as [Hok (<- & <- & <-)]. pose proof Hok as (H1 & _ & _ & _ & H2 & _).
    apply (sampler_law EL HEL _ N (nrep L) (einsum_u L T) v T); auto.
    + apply einsum_u_wf; auto. + cbn. nia. + apply einsum_sampler; auto.
  - destruct Hok as [Hok (<- & <- & <-)]. pose proof Hok as (H1 & _ & _).
    apply (sampler_law EL HEL _ N (nrep L) (linsum_u L T) v T); auto.
    + apply linsum_u_wf; auto. + apply linsum_sampler; auto.
  - destruct Hok as [Hok (He & <- & <- & <-)]. pose proof Hok as (H1 & _ & _).
    pose proof (sum_u_wf (nrep L) L T H1) as Hw1. pose proof (pairprod_u_wf (nrep L) (nf L) (sout L)) as Hw2.
    assert (EF: linsum_features_out L = uDout (pairprod_u (nf L) (sout L))).
    { cbn. unfold linsum_features_out, linsum_pad. rewrite div2_half. reflexivity. }
    apply (layer_law_ext EL (fun c => mbind (Ret (pair_ctx c)) (linsum2_core L ca))).
    { intros c Hc. cbn [mbind]. symmetry. eapply linsum2_sample_eq; eauto. }
    apply (layer_law_comp EL HEL _ _ N (nrep L) [pairprod_u (nf L) (sout L)] [sum_u L T] (nf L) (sin L) (nf L) (sout L)).
    + cbn [uchain]. auto.
    + cbn [uchain]. auto.
    + auto.
    + rewrite EF. apply (route_law EL (fun c => Ret (pair_ctx c)) N (nrep L) (pairprod_u (nf L) (sout L))); auto.
      * intros n Hn. eapply (evals_pos (nrep L) [sum_u L T]); [|apply Hv; auto]. cbn [uchain]. auto.
      * intros c Hc. rewrite <- EF in Hc. exists (pair_ctx c). split; auto.
        pose proof (pair_ctx_good L c N (nrep L) He Hc). auto 10.
    + apply (sampler_law EL HEL _ N (nrep L) (sum_u L T) v T); auto. apply linsum2_sampler; auto.
  - destruct Hok as [Hok (<- & <- & <-)]. pose proof Hok as (H1 & _).
    apply (sampler_law EL HEL _ N (nrep L) (sum_u L T) v T); auto.
    + apply sum_u_wf; auto. + apply sum_sampler; auto.
  - subst D'. apply (route_law EL (rootprod_sample D) N Rn (rootprod_u D S) v T); auto.
    + apply rootprod_u_wf.
    + intros c Hc. cbn [rootprod_u uDout uSout uDin uSin usel upar] in *.
      destruct (@rootprod_sample_ok V D S N Rn c Hc) as (c' & E & G & H1 & H2 & H3 & H4).
      exists c'. auto 10.
Qed.

Theorem sample_layers_law Rn ls : forall D S D' S' N cs v T, layers_ok Rn ls D S D' S' -> (0 < N)%nat -> T <> 0 ->
  layers_cached T Rn D S ls cs N v -> (forall n, (n < N)%nat -> vpos D S Rn (v n)) ->
  layer_law EL (sample_layers (combine ls cs)) N Rn (layers_us T S ls) D S D' S' T v.
Proof.
  induction ls as [|l ls IH]; intros D S D' S' N cs v T Hok HN HT Hca Hv.
  - destruct Hok as [<- <-]. destruct cs; [|destruct Hca]. cbn [combine layers_us].
    apply (layer_law_ext EL (fun c => Ret c)); [reflexivity|]. apply layer_law_nil; auto.
  - destruct cs as [|ca cs]; [destruct Hca|]. cbn [layers_ok layers_cached combine layers_us] in *.
    destruct Hok as [H1 H2]. destruct Hca as [(v' & Hc1 & Ev) Hc2].
    apply (layer_law_ext EL (fun c => mbind (sample_layers (combine ls cs) c) (layer_sample l ca))); [reflexivity|].
    pose proof (layer_chain T _ _ _ _ H1) as C1.
    eapply (layer_law_comp EL HEL); [exact C1|apply layers_chain; exact H2|auto| |].
    + apply IH; auto. intros n Hn. eapply evals_pos; [exact C1|auto].
    + apply (layer_law_vext _ _ _ _ _ _ _ _ _ v'); auto.
      { intros n Hn d s r Hd Hs Hr. symmetry. apply Ev; auto. }
      apply (layer_sample_law Rn D S l N ca v' T); auto.
      intros n Hn d s r Hd Hs Hr. rewrite <- Ev; auto. apply Hv; auto.
Qed.
End Law.
