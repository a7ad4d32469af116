(** Every mode of sampling: no failure, well-formed results; mpe is deterministic. *)
From Coq Require Import List Arith Lia Bool Reals Lra.
Import ListNotations.
From Verif Require Import Base RSum Num Tensor Prob Layers Circuit Net RefFwd RefSample RefLaw Leaf Perm RefLeaf RefLeafS Einet RefNet RefEinet RefEinetS.
Local Open Scope R_scope.
Local Arguments Nat.div : simpl never.
Local Arguments Nat.modulo : simpl never.
Local Arguments Nat.sub : simpl never.
Local Arguments Nat.mul : simpl never.
Local Arguments Nat.add : simpl never.

Section Mpe.
Context {V : Type}.

(** The largest weight of each row is chosen. *)
Lemma choose_mpe c lw N D K w : c_mpe c = true -> lrows lw N D K w -> (0 < K)%nat ->
  exists t, @choose V c lw = Ret t /\ shape t = [N; D] /\
    forall n d, (n < N)%nat -> (d < D)%nat -> (get t [n; d] < K)%nat /\ forall k, (k < K)%nat -> w n d k <= w n d (get t [n; d]).
Proof.
  intros Hm [Sw Gw] HK. unfold choose. rewrite Hm. eexists. split; [reflexivity|]. unfold targmax, reduce. rewrite Sw. cbn [shape remove_nth].
  split; [reflexivity|]. intros n d Hn Hd. cbn [get]. unfold size. rewrite Sw. cbn [nth insert_nth]. split; [apply nargmax_lt; auto|].
  intros k Hk. set (f := fun k0 => get lw [n; d; k0]).
  assert (A: ln (w n d k) <= ln (w n d (nargmax K f))).
  { apply (nargmax_max K f (fun j => ln (w n d j))); auto. intros i Hi. unfold f. destruct (Gw n d i Hn Hd Hi) as [_ ->]. reflexivity. }
  assert (B: (nargmax K f < K)%nat) by (apply nargmax_lt; auto).
  destruct (Gw n d k Hn Hd Hk) as [P1 _]. destruct (Gw n d _ Hn Hd B) as [P2 _].
  destruct (Rle_dec (w n d k) (w n d (nargmax K f))) as [|C]; auto. exfalso. apply Rnot_le_lt in C. apply ln_increasing in C; auto. lra.
Qed.
Lemma choose_out supp c lw N D K w r : lrows lw N D K w -> (0 < K)%nat ->
  (forall n d, (n < N)%nat -> (d < D)%nat -> rsum K (w n d) = 1) ->
  outcome supp (@choose V c lw) r ->
  exists t, r = Ok t /\ shape t = [N; D] /\ forall n d, (n < N)%nat -> (d < D)%nat -> (get t [n; d] < K)%nat.
Proof.
  intros Hw HK Hs Ho. destruct (c_mpe c) eqn:Hm; [|eapply choose_outcome; eauto].
  destruct (choose_mpe c lw N D K w Hm Hw HK) as (t & Et & St & Gt). rewrite Et in Ho. apply outcome_ret_inv in Ho.
  exists t. split; auto. split; auto. intros n d Hn Hd. apply Gt; auto.
Qed.

(** From a good context over the outputs, in any mode: never fails, a good context over the inputs;
    in mpe mode nothing is drawn. *)
Definition layer_out (f : sctx -> M V sctx) (N Rn Din Sin Dout Sout : nat) : Prop :=
  forall c, cgood c N Dout Sout Rn -> c_tsum c <> 0 ->
  (forall supp r, outcome supp (f c) r -> exists c', r = Ok c' /\ cgood c' N Din Sin Rn /\
      c_rep c' = c_rep c /\ c_mpe c' = c_mpe c /\ c_tsum c' = c_tsum c) /\
  (c_mpe c = true -> exists c', f c = Ret c').

Lemma sampler_out f N Rn (U : R -> ulayer) v D S D' S' : (forall T, T <> 0 -> uwf Rn (U T) /\ (0 < uK (U T))%nat /\ uDin (U T) = D /\ uSin (U T) = S /\
     uDout (U T) = D' /\ uSout (U T) = S' /\ sampler f N Rn (U T) v T) ->
  (forall n, (n < N)%nat -> vpos D S Rn (v n)) -> layer_out f N Rn D S D' S'.
Proof.
  intros H Hv c Hc HT. destruct (H (c_tsum c) HT) as (Hw & HK & <- & <- & <- & <- & Hs). set (u := U (c_tsum c)) in *.
  destruct (Hs c Hc eq_refl) as (lw & g & Ef & Hlw & Hg). rewrite Ef. pose proof Hc as (Hn & So & Go & Sr & Gr).
  assert (HS1: forall n d, (n < N)%nat -> (d < uDout u)%nat ->
     rsum (uK u) (fun k => upost u (v n) d (get (c_out c) [n; d]) (get (c_rep c) [n]) k) = 1).
  { intros n d Hn' Hd. apply (upost_sum Rn); auto. }
  assert (G: forall t, shape t = [N; uDout u] -> (forall n d, (n < N)%nat -> (d < uDout u)%nat -> (get t [n; d] < uK u)%nat) ->
     exists c', g t = Ret c' /\ cgood c' N (uDin u) (uSin u) Rn /\ c_rep c' = c_rep c /\ c_mpe c' = c_mpe c /\ c_tsum c' = c_tsum c).
  { intros t St Gt. destruct (Hg t St Gt) as (i & Ei & Si & Gi). exists (set_out c i). split; auto.
    split; [|unfold set_out; cbn; auto]. split; [exact Hn|]. split; [exact Si|]. split; [|split; auto].
    intros n d Hn' Hd. unfold set_out; cbn [c_out]. rewrite Gi by auto.
    assert (P: (upar u d < uDout u)%nat) by (apply (uw_par _ _ Hw); auto).
    apply (uw_sel _ _ Hw); auto. apply (uw_kids _ _ Hw); auto. }
  split.
  - intros supp r Ho. apply outcome_bind in Ho as [(e & Ho & ->)|(t & Ho & Hr)].
    + destruct (choose_out _ _ _ _ _ _ _ _ Hlw HK HS1 Ho) as (t & E & _). discriminate.
    + destruct (choose_out _ _ _ _ _ _ _ _ Hlw HK HS1 Ho) as (t' & E & St & Gt). inversion E; subst t'.
      destruct (G t St Gt) as (c' & Eg & Gc). rewrite Eg in Hr. apply outcome_ret_inv in Hr. exists c'. auto.
  - intros Hm. destruct (choose_mpe c lw N _ _ _ Hm Hlw HK) as (t & Et & St & Gt). rewrite Et. cbn [mbind].
    destruct (G t St) as (c' & Eg & _); [intros; apply Gt; auto|]. exists c'. auto.
Qed.
Lemma route_out f N Rn D S D' S' :
  (forall c, cgood c N D' S' Rn -> exists c', f c = Ret c' /\ cgood c' N D S Rn /\
     c_rep c' = c_rep c /\ c_mpe c' = c_mpe c /\ c_tsum c' = c_tsum c) ->
  layer_out f N Rn D S D' S'.
Proof.
  intros H c Hc HT. destruct (H c Hc) as (c' & E & G). split.
  - intros supp r Ho. rewrite E in Ho. apply outcome_ret_inv in Ho. exists c'. auto.
  - intros _. exists c'. auto.
Qed.
Lemma layer_out_ext f g N Rn D S D' S' : (forall c, cgood c N D' S' Rn -> f c = g c) -> layer_out f N Rn D S D' S' -> layer_out g N Rn D S D' S'.
Proof. intros E L c Hc HT. rewrite <- E by auto. apply L; auto. Qed.
Lemma layer_out_comp f1 f2 N Rn D0 S0 D1 S1 D2 S2 :
  layer_out f1 N Rn D1 S1 D2 S2 -> layer_out f2 N Rn D0 S0 D1 S1 ->
  layer_out (fun c => mbind (f1 c) f2) N Rn D0 S0 D2 S2.
Proof.
  intros L1 L2 c Hc HT. destruct (L1 c Hc HT) as [O1 M1]. split.
  - intros supp r Ho. apply outcome_bind in Ho as [(e & Ho & ->)|(c1 & Ho & Hr)].
    + destruct (O1 _ _ Ho) as (c' & E & _). discriminate.
    + destruct (O1 _ _ Ho) as (c' & E & G1 & R1 & Q1 & T1). inversion E; subst c'.
      destruct (L2 c1 G1) as [O2 _]; [rewrite T1; auto|]. destruct (O2 _ _ Hr) as (c2 & -> & G2 & R2 & Q2 & T2).
      exists c2. split; auto. split; auto. split; [congruence|]. split; congruence.
  - intros Hm. destruct (M1 Hm) as (c1 & E1). rewrite E1. cbn [mbind].
    destruct (O1 (fun _ _ => True) (Ok c1)) as (c' & E & G1 & R1 & Q1 & T1); [rewrite E1; constructor|]. inversion E; subst c'.
    destruct (L2 c1 G1) as [_ M2]; [rewrite T1; auto|]. apply M2. congruence.
Qed.

Lemma layer_sample_out Rn D S l N ca v : layer_ok Rn D S l -> (0 < N)%nat -> layer_cached l N ca v ->
  (forall n, (n < N)%nat -> vpos D S Rn (v n)) ->
  layer_out (layer_sample l ca) N Rn D S (layer_dout l) (layer_sout S l).
Proof.
  intros Hok HN Hca Hv.
  destruct l as [L|L|L|L|D']; cbn [layer_ok layer_us layer_dout layer_sout layer_sample layer_cached] in *.
  - destruct Hok as [Hok (<- & <- & <-)]. pose proof Hok as (H1 & _ & _ & _ & H2 & _).
    apply (sampler_out _ N (nrep L) (einsum_u L) v); auto. intros T HT. split; [apply einsum_u_wf; auto|]. split; [cbn; nia|].
    do 4 (split; [reflexivity|]). apply einsum_sampler; auto.
  - destruct Hok as [Hok (<- & <- & <-)]. pose proof Hok as (H1 & _ & _).
    apply (sampler_out _ N (nrep L) (linsum_u L) v); auto. intros T HT. split; [apply linsum_u_wf; auto|]. split; [exact H1|].
    do 4 (split; [reflexivity|]). apply linsum_sampler; auto.
  - destruct Hok as [Hok (He & <- & <- & <-)]. pose proof Hok as (H1 & _ & _).
    apply (layer_out_ext (fun c => mbind (Ret (pair_ctx c)) (linsum2_core L ca))).
    { intros c Hc. cbn [mbind]. symmetry. eapply linsum2_sample_eq; eauto. }
    apply (layer_out_comp (fun c => Ret (pair_ctx c)) _ N (nrep L) (nf L) (sin L) (nf L) (sout L)).
    + apply route_out. intros c Hc. exists (pair_ctx c). split; auto. split; [apply pair_ctx_good; auto|]. auto.
    + apply (sampler_out _ N (nrep L) (sum_u L) v); auto. intros T HT. split; [apply sum_u_wf; auto|]. split; [exact H1|].
      do 4 (split; [reflexivity|]). apply linsum2_sampler; auto.
  - destruct Hok as [Hok (<- & <- & <-)]. pose proof Hok as (H1 & _).
    apply (sampler_out _ N (nrep L) (sum_u L) v); auto. intros T HT. split; [apply sum_u_wf; auto|]. split; [exact H1|].
    do 4 (split; [reflexivity|]). apply sum_sampler; auto.
  - subst D'. apply route_out. intros c Hc. destruct (@rootprod_sample_ok V D S N Rn c Hc) as (c' & E & G & H1 & H2 & H3 & H4).
    exists c'. auto.
Qed.

Lemma sample_layers_out Rn ls : forall D S D' S' N cs v T, layers_ok Rn ls D S D' S' -> (0 < N)%nat ->
  layers_cached T Rn D S ls cs N v -> (forall n, (n < N)%nat -> vpos D S Rn (v n)) ->
  layer_out (sample_layers (combine ls cs)) N Rn D S D' S'.
Proof.
  induction ls as [|l ls IH]; intros D S D' S' N cs v T Hok HN Hca Hv.
  - destruct Hok as [<- <-]. destruct cs; [|destruct Hca]. cbn [combine]. apply route_out. intros c Hc. exists c. auto.
  - destruct cs as [|ca cs]; [destruct Hca|]. cbn [layers_ok layers_cached combine] in *.
    destruct Hok as [H1 H2]. destruct Hca as [(v' & Hc1 & Ev) Hc2].
    apply (layer_out_ext (fun c => mbind (sample_layers (combine ls cs) c) (layer_sample l ca))); [reflexivity|].
    pose proof (layer_chain T _ _ _ _ H1) as C1.
    eapply layer_out_comp.
    + eapply IH; [exact H2|auto|exact Hc2|]. intros n Hn. eapply evals_pos; [exact C1|auto].
    + apply (layer_sample_out Rn D S l N ca v'); auto.
      intros n Hn d s r Hd Hs Hr. rewrite <- Ev; auto. apply Hv; auto.
Qed.

Variable E : einet V.
Hypothesis HE : einet_ok E.
Let lf := leaf_of (e_leaf E).

Lemma class_step_out a : class_ok E a -> (0 < num_samples a)%nat -> a_tsum a <> 0 ->
  let N := num_samples a in
  (forall supp r, outcome supp (class_step E a (init_ctx a)) r -> exists c', r = Ok (N, c') /\ cgood c' N 1 (e_K E) (e_R E) /\
      c_mpe c' = a_mpe a /\ c_tsum c' = a_tsum a) /\
  (a_mpe a = true -> exists x, class_step E a (init_ctx a) = Ret x).
Proof.
  intros Hc HN HT N. pose proof (eo_R E HE) as HR. pose proof (eo_K E HE) as HK.
  unfold class_step, class_ok in *. fold N in Hc, HN |- *. destruct (Nat.ltb_spec 1 (e_K E)) as [HK1|HK1].
  - destruct (a_class a) as [|y|cs].
    + destruct (eo_root E HE HK1) as (s & Es & Hok & S1 & S2 & S3 & S4). rewrite Es. cbn [attr lift mbind].
      pose proof (layer_sample_out 1 1 (e_K E) (LSum s) N None vone) as L.
      cbn [layer_ok layer_dout layer_sout layer_sample layer_cached] in L. unfold dims in L. rewrite S1, S3 in L.
      assert (L': layer_out (sum_sample s None) N 1 1 (e_K E) 1 1).
      { apply L; auto. left; auto. intros n Hn d k r _ _ _. unfold vone. lra. }
      clear L. pose proof (init_ctx_good a 1 1 ltac:(lia) ltac:(lia)) as G. fold N in G.
      destruct (L' (init_ctx a) G) as [O X]; [exact HT|]. split.
      * intros supp r Ho. apply outcome_bind in Ho as [(e & Ho & _)|(c' & Ho & Hr)].
        { destruct (O _ _ Ho) as (c' & Z & _). discriminate. }
        destruct (O _ _ Ho) as (c'' & Z & Gc & Er & Em & Et). inversion Z; subst c''.
        apply outcome_ret_inv in Hr. exists c'. split; auto. split; auto.
        destruct Gc as (H1 & H2 & H3 & H4 & H5). repeat split; auto. intros n Hn. specialize (H5 n Hn). lia.
      * intros Hm. destruct (X Hm) as (c' & ->). cbn [mbind]. eauto.
    + destruct Hc as [_ Hy]. split; [|eauto].
      intros supp r Ho. apply outcome_ret_inv in Ho. eexists. split; [exact Ho|].
      pose proof (init_ctx_good a _ _ HR HK) as (H1 & H2 & H3 & H4 & H5). split; [|split; reflexivity]. repeat split; auto.
    + destruct Hc as (_ & Hl & Hcs). split; [|eauto].
      intros supp r Ho. apply outcome_ret_inv in Ho. rewrite Hl in Ho. eexists. split; [exact Ho|].
      pose proof (init_ctx_good a _ _ HR HK) as (H1 & H2 & H3 & H4 & H5). split; [|split; reflexivity].
      repeat split; auto. intros n d Hn Hd. cbn. apply Hcs. apply nth_In. fold N in Hl. lia.
  - split; [|eauto]. intros supp r Ho. apply outcome_ret_inv in Ho. eexists. split; [exact Ho|].
    split; [apply init_ctx_good; auto|]. split; auto.
Qed.

Lemma mixing_step_out N cs (v : nat -> nat -> nat -> R) c : c_tsum c <> 0 ->
  mcached E N (ca_mixing cs) v ->
  (forall n y r, (n < N)%nat -> (y < e_K E)%nat -> (r < e_R E)%nat -> 0 < v n y r) ->
  cgood c N 1 (e_K E) (e_R E) ->
  (forall supp r, outcome supp (mixing_step E cs N c) r -> exists c', r = Ok c' /\ cgood c' N 1 (e_K E) (e_R E) /\
      c_mpe c' = c_mpe c /\ c_tsum c' = c_tsum c) /\
  (c_mpe c = true -> exists c', mixing_step E cs N c = Ret c').
Proof.
  intros HT Hca Hv Hc. unfold mixing_step. destruct (Nat.ltb_spec 1 (e_R E)) as [HR|HR].
  - destruct (eo_mix E HE HR) as (m & Emx & Hok & Hs1 & Hs2). rewrite Emx. cbn [attr lift mbind].
    destruct (Hca HR m Emx) as (v' & Hca' & Ev'). pose proof Hok as (HS & _ & _).
    pose proof Hc as Hc0. rewrite <- Hs2 in Hc0.
    destruct (@mixing_sampler V m N _ (ca_mixing cs) v' (c_tsum c) c Hok HT Hca' Hc0 eq_refl) as (lw & Ef & Hlw).
    pose proof Hc as (K1 & K2 & K3 & K4 & K5).
    assert (HS1: forall n d, (n < N)%nat -> (d < 1)%nat ->
       rsum (sin m) (fun r => mixpost m (c_tsum c) (v' n) (get (c_out c) [n; d]) r) = 1).
    { intros n d Hn' Hd. unfold mixpost, Rdiv. rewrite rsum_scal_r. apply Rinv_r. apply Rgt_not_eq. apply rsum_pos; auto.
      intros r Hr. rewrite Hs1 in Hr. apply Rmult_lt_0_compat; [apply wsoft_pos; auto|rewrite Ev'; auto]. }
    assert (VW: forall t : tensor nat, shape t = [N; 1%nat] -> exists t', view [N] t = Ok t' /\ shape t' = [N] /\
       forall n, (n < N)%nat -> get t' [n] = get t [n; 0%nat]).
    { intros t St. unfold view. rewrite St. cbn [numel]. rewrite !Nat.mul_1_r, Nat.eqb_refl. eexists. split; [reflexivity|].
      split; [reflexivity|]. intros n Hn. cbn [get ravel numel unravel].
      rewrite !Nat.mul_1_r, Nat.add_0_r, Nat.div_1_r, Nat.mod_1_r. reflexivity. }
    rewrite Ef. rewrite mbind_assoc. cbn [mbind]. split.
    + intros supp r Ho. apply outcome_bind in Ho as [(e & Ho & _)|(t & Ho & Hr)].
      { destruct (choose_out _ _ _ _ _ _ _ _ Hlw HS HS1 Ho) as (c' & Z & _). discriminate. }
      destruct (choose_out _ _ _ _ _ _ _ _ Hlw HS HS1 Ho) as (t' & Z & St & Gt). inversion Z; subst t'.
      cbn [set_out c_out] in Hr. destruct (VW _ St) as (t' & Ev & Sv & Gv). rewrite Ev in Hr. cbn [lift mbind] in Hr.
      apply outcome_ret_inv in Hr. eexists. split; [exact Hr|].
      split; [|split; auto]. split; [exact K1|]. split; [exact K2|]. split; [exact K3|]. split; [exact Sv|].
      intros n Hn. cbn [c_rep]. rewrite Gv by auto. rewrite <- Hs1. apply Gt; auto.
    + intros Hm. destruct (choose_mpe c lw N _ _ _ Hm Hlw HS) as (t & Et & St & Gt). rewrite Et. cbn [mbind set_out c_out].
      destruct (VW _ St) as (t' & Ev & _). rewrite Ev. cbn [lift mbind]. eauto.
  - split; [|eauto]. intros supp r Ho. apply outcome_ret_inv in Ho. exists c. auto.
Qed.

(** Leaf values: drawn from component (l, r), or its mode. *)
Definition filled (a : sargs (V := V)) (supp : list nat -> V -> Prop) (c f : nat) (w : V) : Prop :=
  exists l r, (l < e_L E)%nat /\ (r < e_R E)%nat /\
    if a_mpe a || a_mpel a then exists md, lf_mode lf = Some md /\ w = md [c; f; l; r] else supp [c; f; l; r] w.

Lemma walk_out a cs v T : class_ok E a -> (0 < num_samples a)%nat -> a_tsum a <> 0 ->
  let N := num_samples a in
  cs_ok E T N cs v -> (forall n, (n < N)%nat -> vpos (leaf_out E) (e_L E) (e_R E) (v n)) ->
  (forall supp r, outcome supp (walk E a cs) r -> exists c', r = Ok c' /\ cgood c' N (leaf_out E) (e_L E) (e_R E)) /\
  (a_mpe a = true -> exists c', walk E a cs = Ret c').
Proof.
  intros Hcl HN HT N [Hl Hmx] Hv.
  destruct (class_step_out a Hcl HN HT) as [O1 X1]. fold N in O1, X1, HN.
  assert (Hvm: forall n y r, (n < N)%nat -> (y < e_K E)%nat -> (r < e_R E)%nat -> 0 < evals (us E T) (v n) 0%nat y r).
  { intros n y r Hn Hy Hr. apply (evals_root_pos E HE T (v n) y r); auto. }
  pose proof (sample_layers_out (e_R E) (e_layers E) (leaf_out E) (e_L E) 1 (e_K E) N (ca_layers cs) v T (eo_layers E HE) HN Hl Hv) as L.
  unfold walk. split.
    - intros supp r Ho. apply outcome_bind in Ho as [(e & Ho & _)|(nc & Ho & Hr)].
      { destruct (O1 _ _ Ho) as (c' & Z & _). discriminate. }
      destruct (O1 _ _ Ho) as (c1 & Z & G1 & Em1 & Et1). inversion Z; subst nc. cbn [fst snd] in Hr.
      destruct (mixing_step_out N cs _ c1 ltac:(rewrite Et1; auto) Hmx Hvm G1) as [O2 _].
      apply outcome_bind in Hr as [(e & Hr & _)|(c2 & Ho2 & Hr)].
      { destruct (O2 _ _ Hr) as (c' & Z' & _). discriminate. }
      destruct (O2 _ _ Ho2) as (c2' & Z2 & G2 & Em2 & Et2). inversion Z2; subst c2'.
      destruct (L c2 G2) as [O3 _]; [rewrite Et2, Et1; auto|]. destruct (O3 _ _ Hr) as (c3 & Z3 & G3 & _). exists c3. auto.
    - intros Hm. destruct (X1 Hm) as (nc & E1). rewrite E1. cbn [mbind].
      destruct (O1 (fun _ _ => True) (Ok nc)) as (c1 & Z & G1 & Em1 & Et1); [rewrite E1; constructor|]. inversion Z; subst nc. cbn [fst snd].
      destruct (mixing_step_out N cs _ c1 ltac:(rewrite Et1; auto) Hmx Hvm G1) as [O2 X2].
      destruct X2 as (c2 & E2); [congruence|]. rewrite E2. cbn [mbind].
      destruct (O2 (fun _ _ => True) (Ok c2)) as (c2' & Z2 & G2 & Em2 & Et2); [rewrite E2; constructor|]. inversion Z2; subst c2'.
      destruct (L c2 G2) as [_ X3]; [rewrite Et2, Et1; auto|]. apply X3. congruence.
Qed.

Lemma core_out a cs v T : class_ok E a -> (0 < num_samples a)%nat -> a_tsum a <> 0 -> lf_ctx lf = true ->
  (a_mpe a || a_mpel a = true -> lf_mode lf <> None) ->
  let N := num_samples a in
  cs_ok E T N cs v -> (forall n, (n < N)%nat -> vpos (leaf_out E) (e_L E) (e_R E) (v n)) ->
  (forall supp r, outcome supp (core E a cs) r -> exists t, r = Ok t /\ shape t = [N; e_C E; e_F E] /\
     forall n c f, (n < N)%nat -> (c < e_C E)%nat -> (f < e_F E)%nat -> filled a supp c f (get t [n; c; f])) /\
  (a_mpe a = true -> exists t, core E a cs = Ret t).
Proof.
  intros Hcl HN HT Hctx Hmd N [Hl Hmx] Hv.
  pose proof (eo_lC E HE) as EC. pose proof (eo_lF E HE) as EF.
  pose proof (eo_lL E HE) as EL'. pose proof (eo_lR E HE) as ER. fold lf in EC, EF, EL', ER.
  assert (HG: forall r f, (r < lf_R lf)%nat -> (f < lf_F lf)%nat -> (sgrp E r f < leaf_out E)%nat).
  { rewrite EF, ER. intros. apply sgrp_lt; auto. }
  pose proof (walk_out a cs v T Hcl HN HT (conj Hl Hmx) Hv) as W. fold N in W.
  destruct W as [OW XW]. unfold core.
  assert (B: forall c, cgood c N (leaf_out E) (e_L E) (e_R E) ->
    (forall supp r, outcome supp (bottom E c (a_mpe a || a_mpel a)) r -> exists t, r = Ok t /\ shape t = [N; e_C E; e_F E] /\
     forall n c f, (n < N)%nat -> (c < e_C E)%nat -> (f < e_F E)%nat -> filled a supp c f (get t [n; c; f])) /\
    (a_mpe a || a_mpel a = true -> exists t, bottom E c (a_mpe a || a_mpel a) = Ret t)).
  { intros c Gc. destruct (bottom_routes E HE c N Hctx HN Gc) as (k & Hk & Eb). rewrite Eb.
    pose proof Gc as (_ & _ & Go & _ & Gr). rewrite EF, ER in HG.
    assert (HG': forall r f, (r < lf_R lf)%nat -> (f < lf_F lf)%nat -> (sgrp E r f < leaf_out E)%nat) by (rewrite EF, ER; auto).
    rewrite <- EL', <- ER in Gc. unfold filled. destruct (a_mpe a || a_mpel a) eqn:Em.
    - destruct (lf_mode lf) as [md|] eqn:Emd; [|exfalso; apply Hmd; auto].
      destruct (leaf_mode_prog lf k c N (leaf_out E) (sgrp E) md Gc HG' Hk Emd) as (t & Et & St & Gt). rewrite EC, EF in St, Gt.
      unfold lf in Et. rewrite Et. split; [|eauto]. intros supp r Ho. apply outcome_ret_inv in Ho. exists t. split; auto. split; auto.
      intros n ch f Hn Hch Hf. exists (get (c_out c) [n; sgrp E (get (c_rep c) [n]) f]), (get (c_rep c) [n]).
      split; [apply Go; auto|]. split; auto. exists md. split; auto.
    - split; [|discriminate]. intros supp r Ho.
      destruct (leaf_draw_outcome lf supp k c N (leaf_out E) (sgrp E) r Gc HG' Hk Ho) as (t & -> & St & Gt).
      exists t. split; auto. rewrite EC, EF in St, Gt. split; auto. intros n ch f Hn Hch Hf.
      exists (get (c_out c) [n; sgrp E (get (c_rep c) [n]) f]), (get (c_rep c) [n]). split; [|split; auto]. apply Go; auto. }
  split.
  - intros supp r Ho. apply outcome_bind in Ho as [(e & Ho & _)|(c & Ho & Hr)].
    { destruct (OW _ _ Ho) as (c' & Z & _). discriminate. }
    destruct (OW _ _ Ho) as (c' & Z & Gc). inversion Z; subst c'. apply (B c Gc); auto.
  - intros Hm. destruct (XW Hm) as (c & Ec). rewrite Ec. cbn [mbind].
    destruct (OW (fun _ _ => True) (Ok c)) as (c' & Z & Gc); [rewrite Ec; constructor|]. inversion Z; subst c'.
    apply (B c Gc). rewrite Hm. reflexivity.
Qed.

(** Results of sample and mpe, in every mode. *)
Theorem sample_free_out a : check_args E a = Ok tt -> class_ok E a -> a_ev a = None -> (0 < num_samples a)%nat ->
  a_tsum a <> 0 -> lf_ctx lf = true -> (a_mpe a || a_mpel a = true -> lf_mode lf <> None) ->
  let N := num_samples a in
  (forall supp r, outcome supp (sample E a) r -> exists t, r = Ok t /\ shape t = [N; e_C E; e_F E] /\
     forall n c f, (n < N)%nat -> (c < e_C E)%nat -> (f < e_F E)%nat ->
       exists w, get t [n; c; f] = Some w /\ filled a supp c f w) /\
  (a_mpe a = true -> exists t, sample E a = Ret t).
Proof.
  intros Hch Hcl Hev HN HT Hctx Hmd N.
  assert (Ec: ev_caches E a = Ok (no_caches E)) by (unfold ev_caches; rewrite Hev; auto).
  rewrite (sample_core E a _ Hch Ec).
  destruct (core_out a (no_caches E) vone 1 Hcl HN HT Hctx Hmd (no_caches_ok E HE _ _)) as [O X].
  { intros n Hn d s r _ _ _. unfold vone. lra. }
  fold N in O. unfold finish. rewrite Hev. split.
  - intros supp r Ho. apply outcome_bind in Ho as [(e & Ho & _)|(t & Ho & Hr)].
    { destruct (O _ _ Ho) as (c' & Z & _). discriminate. }
    destruct (O _ _ Ho) as (t' & Z & St & Gt). inversion Z; subst t'. apply outcome_ret_inv in Hr. subst r.
    exists (tmap Some t). split; auto. split; auto. intros n c f Hn Hc Hf. exists (get t [n; c; f]). auto.
  - intros Hm. destruct (X Hm) as (t & ->). cbn [mbind]. eauto.
Qed.
Theorem sample_evidence_out a e : a_ev a = Some e -> check_args E a = Ok tt -> let N := num_samples a in
  input_ok E N e (a_ms a) -> (0 < N)%nat -> a_tsum a <> 0 -> lf_ctx lf = true -> (a_mpe a || a_mpel a = true -> lf_mode lf <> None) ->
  (forall supp r, outcome supp (sample E a) r -> exists o, r = Ok o /\ shape o = shape e /\
     forall n c f, (n < N)%nat -> (c < e_C E)%nat -> (f < e_F E)%nat ->
       match row e (a_ms a) n c f with
       | Some v => entry o n c f = Some v
       | None => exists w, entry o n c f = Some w /\ filled a supp c f w
       end) /\
  (a_mpe a = true -> exists o, sample E a = Ret o).
Proof.
  intros Hev Hch N Hin HN HT Hctx Hmd.
  assert (Hcl: class_ok E a).
  { unfold class_ok. unfold check_args in Hch. rewrite Hev in Hch. destruct (a_class a); auto; discriminate. }
  destruct (forward_full_rep E HE N e (a_ms a) Hin) as (y & cs & Ey & _ & _ & v & Hv & Hc1 & Hc2). fold lf in Hv.
  assert (Ec: ev_caches E a = Ok cs) by (unfold ev_caches; rewrite Hev, Ey; auto).
  rewrite (sample_core E a _ Hch Ec).
  assert (Pv: forall n, (n < N)%nat -> vpos (leaf_out E) (e_L E) (e_R E) (v n)).
  { intros n Hn d s r Hd Hs Hr. rewrite Hv by auto. apply (leafval_pos (fnet E)); auto. intros. apply lval_pos. }
  assert (Hcs: cs_ok E 1 N cs v).
  { split; auto. intros HR m Em. eexists. split; [apply Hc2; auto|]. reflexivity. }
  destruct (core_out a cs v 1 Hcl HN HT Hctx Hmd Hcs Pv) as [O X]. fold N in O. unfold finish. rewrite Hev. split.
  - intros supp r Ho. apply outcome_bind in Ho as [(e' & Ho & _)|(t & Ho & Hr)].
    { destruct (O _ _ Ho) as (c' & Z & _). discriminate. }
    destruct (O _ _ Ho) as (t' & Z & St & Gt). inversion Z; subst t'.
    destruct (merge_ok E N e (a_ms a) t Hin St) as (o & Eo & So & Go). rewrite Eo in Hr. apply outcome_ret_inv in Hr. subst r.
    exists o. split; auto. split; auto. intros n c f Hn Hc Hf. rewrite Go by auto. destruct (row e (a_ms a) n c f); auto.
    exists (get t [n; c; f]). auto.
  - intros Hm. destruct (X Hm) as (t & Et). rewrite Et. cbn [mbind].
    destruct (O (fun _ _ => True) (Ok t)) as (t' & Z & St & _); [rewrite Et; constructor|]. inversion Z; subst t'.
    destruct (merge_ok E N e (a_ms a) t Hin St) as (o & Eo & _). rewrite Eo. cbn [lift]. eauto.
Qed.
End Mpe.
