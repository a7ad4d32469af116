(** mpe treats every row on its own: two runs whose rows [n] and [n'] see the same values pick the same components. *)
From Coq Require Import List Arith Lia Bool Reals Lra.
Import ListNotations.
From Verif Require Import Base RSum Num Tensor Prob Layers Circuit Net RefFwd RefSample RefLaw Leaf Perm RefLeaf RefLeafS Einet RefNet RefEinet RefEinetS RefMpe.
Local Open Scope R_scope.
Local Arguments Nat.div : simpl never.
Local Arguments Nat.modulo : simpl never.
Local Arguments Nat.sub : simpl never.
Local Arguments Nat.mul : simpl never.
Local Arguments Nat.add : simpl never.

Section Rows.
Context {V : Type}.
Variables N N' n n' : nat.
Hypothesis Hn : (n < N)%nat.
Hypothesis Hn' : (n' < N')%nat.

Lemma choose_same c c' lw lw' D K w w' : c_mpe c = true -> c_mpe c' = true -> (0 < K)%nat ->
  lrows lw N D K w -> lrows lw' N' D K w' ->
  exists t t', @choose V c lw = Ret t /\ @choose V c' lw' = Ret t' /\ shape t = [N; D] /\ shape t' = [N'; D] /\
    (forall i d, (i < N)%nat -> (d < D)%nat -> (get t [i; d] < K)%nat) /\
    (forall i d, (i < N')%nat -> (d < D)%nat -> (get t' [i; d] < K)%nat) /\
    forall d, (d < D)%nat -> (forall k, (k < K)%nat -> w n d k = w' n' d k) -> get t [n; d] = get t' [n'; d].
Proof.
  intros Hm Hm' HK Hw Hw'. destruct (choose_mpe (V := V) c lw N D K w Hm Hw HK) as (t & Et & St & Gt).
  destruct (choose_mpe (V := V) c' lw' N' D K w' Hm' Hw' HK) as (t' & Et' & St' & Gt').
  exists t, t'. do 4 (split; auto). split; [intros; apply Gt; auto|]. split; [intros; apply Gt'; auto|].
  intros d Hd Ew. unfold choose in Et, Et'. rewrite Hm in Et. rewrite Hm' in Et'. assert (E1: targmax 2 lw = t) by congruence. assert (E2: targmax 2 lw' = t') by congruence.
  subst t t'. destruct Hw as [Sw Gw]. destruct Hw' as [Sw' Gw']. unfold targmax, reduce. cbn [get]. unfold size. rewrite Sw, Sw'. cbn [nth insert_nth].
  apply nargmax_ext. intros k Hk. destruct (Gw n d k Hn Hd Hk) as [_ ->]. destruct (Gw' n' d k Hn' Hd Hk) as [_ ->]. rewrite Ew by auto. reflexivity.
Qed.

(** Row [n] of one context is row [n'] of the other. *)
Definition same_row (D : nat) (c c' : sctx) : Prop :=
  (forall d, (d < D)%nat -> get (c_out c) [n; d] = get (c_out c') [n'; d]) /\ get (c_rep c) [n] = get (c_rep c') [n'] /\
  c_mpe c = true /\ c_mpe c' = true /\ c_tsum c = c_tsum c'.
Definition layer_same (f f' : sctx -> M V sctx) (Rn Din Sin Dout Sout : nat) : Prop :=
  forall c c', cgood c N Dout Sout Rn -> cgood c' N' Dout Sout Rn -> c_tsum c <> 0 -> same_row Dout c c' ->
  exists d d', f c = Ret d /\ f' c' = Ret d' /\ cgood d N Din Sin Rn /\ cgood d' N' Din Sin Rn /\ same_row Din d d' /\ c_tsum d = c_tsum c.

Lemma sampler_same f f' Rn (U : R -> ulayer) v v' D S D' S' :
  (forall T, T <> 0 -> uwf Rn (U T) /\ (0 < uK (U T))%nat /\ uDin (U T) = D /\ uSin (U T) = S /\
     uDout (U T) = D' /\ uSout (U T) = S' /\ sampler f N Rn (U T) v T /\ sampler f' N' Rn (U T) v' T) ->
  vagree D S Rn (v n) (v' n') -> layer_same f f' Rn D S D' S'.
Proof.
  intros H Hv c c' Hc Hc' HT (So1 & Sr1 & Sm1 & Sm2 & St1).
  destruct (H (c_tsum c) HT) as (Hw & HK & ED & ES & ED' & ES' & Hs & Hs'). set (u := U (c_tsum c)) in *. clearbody u. subst D S D' S'.
  destruct (Hs c Hc eq_refl) as (lw & g & Ef & Hlw & Hg). destruct (Hs' c' Hc' (eq_sym St1)) as (lw' & g' & Ef' & Hlw' & Hg').
  pose proof Hc as (Kn & So & Go & Sr & Gr). pose proof Hc' as (Kn' & So' & Go' & Sr' & Gr').
  destruct (choose_same c c' lw lw' _ _ _ _ Sm1 Sm2 HK Hlw Hlw') as (t & t' & Et & Et' & Sht & Sht' & Bt & Bt' & Eq).
  destruct (Hg t Sht Bt) as (i & Ei & Si & Gi). destruct (Hg' t' Sht' Bt') as (i' & Ei' & Si' & Gi').
  assert (SEL: forall (x : sctx) M i0 t0, (forall a b, (a < M)%nat -> (b < uDout u)%nat -> (get (c_out x) [a; b] < uSout u)%nat) ->
     (forall a b, (a < M)%nat -> (b < uDout u)%nat -> (get t0 [a; b] < uK u)%nat) ->
     (forall a d', (a < M)%nat -> (d' < uDin u)%nat -> get i0 [a; d'] = usel u (upar u d') (get (c_out x) [a; upar u d']) (get t0 [a; upar u d']) d') ->
     forall a d', (a < M)%nat -> (d' < uDin u)%nat -> (get i0 [a; d'] < uSin u)%nat).
  { intros x M i0 t0 G1 G2 G3 a d Ha Hd. rewrite G3 by auto. assert (P: (upar u d < uDout u)%nat) by (apply (uw_par _ _ Hw); auto).
    apply (uw_sel _ _ Hw); auto. apply (uw_kids _ _ Hw); auto. }
  exists (set_out c i), (set_out c' i'). rewrite Ef, Et, Ef', Et'. cbn [mbind]. split; [exact Ei|]. split; [exact Ei'|].
  split. { split; [exact Kn|]. split; [exact Si|]. split; [|split; auto]. unfold set_out; cbn [c_out]. eapply SEL; eauto. }
  split. { split; [exact Kn'|]. split; [exact Si'|]. split; [|split; auto]. unfold set_out; cbn [c_out]. eapply SEL; eauto. }
  split; [|reflexivity]. unfold same_row, set_out. cbn [c_out c_rep c_mpe c_tsum]. split; [|auto].
  intros d Hd. rewrite Gi, Gi' by auto. assert (P: (upar u d < uDout u)%nat) by (apply (uw_par _ _ Hw); auto). rewrite So1 by auto. f_equal.
  apply Eq; auto. intros k Hk. rewrite So1, Sr1 by auto. unfold upost.
  rewrite (uprod_ext Rn u (v n) (v' n')), (ueval_ext Rn u (v n) (v' n') Hw Hv) by auto. reflexivity.
Qed.
Lemma route_same f f' Rn D S D' S' :
  (forall c, cgood c N D' S' Rn -> exists c', f c = Ret c' /\ cgood c' N D S Rn /\ c_rep c' = c_rep c /\ c_mpe c' = c_mpe c /\ c_tsum c' = c_tsum c) ->
  (forall c, cgood c N' D' S' Rn -> exists c', f' c = Ret c' /\ cgood c' N' D S Rn /\ c_rep c' = c_rep c /\ c_mpe c' = c_mpe c /\ c_tsum c' = c_tsum c) ->
  (forall c c' d d', cgood c N D' S' Rn -> cgood c' N' D' S' Rn -> same_row D' c c' -> f c = Ret d -> f' c' = Ret d' ->
     forall i, (i < D)%nat -> get (c_out d) [n; i] = get (c_out d') [n'; i]) ->
  layer_same f f' Rn D S D' S'.
Proof.
  intros H H' HS c c' Hc Hc' HT Hr. destruct (H c Hc) as (d & Ed & Gd & Rd & Md & Td). destruct (H' c' Hc') as (d' & Ed' & Gd' & Rd' & Md' & Td').
  exists d, d'. do 4 (split; auto). split; [|exact Td]. pose proof Hr as (H1 & H2 & H3 & H4 & H5). split; [eapply HS; eauto|]. rewrite Rd, Rd', Md, Md', Td, Td'. auto.
Qed.
Lemma layer_same_ext f f' g g' Rn D S D' S' : (forall c, cgood c N D' S' Rn -> f c = g c) -> (forall c, cgood c N' D' S' Rn -> f' c = g' c) ->
  layer_same f f' Rn D S D' S' -> layer_same g g' Rn D S D' S'.
Proof. intros E E' L c c' Hc Hc' HT HS. rewrite <- E, <- E' by auto. apply L; auto. Qed.
Lemma layer_same_comp f1 f2 f1' f2' Rn D0 S0 D1 S1 D2 S2 :
  layer_same f1 f1' Rn D1 S1 D2 S2 -> layer_same f2 f2' Rn D0 S0 D1 S1 ->
  layer_same (fun c => mbind (f1 c) f2) (fun c => mbind (f1' c) f2') Rn D0 S0 D2 S2.
Proof.
  intros L1 L2 c c' Hc Hc' HT HS. destruct (L1 c c' Hc Hc' HT HS) as (d & d' & E1 & E1' & G1 & G1' & S1' & T1). rewrite E1, E1'. cbn [mbind].
  destruct (L2 d d' G1 G1') as (x & x' & E2 & E2' & G2 & G2' & S2' & T2); [rewrite T1; auto|auto|].
  exists x, x'. do 5 (split; auto). congruence.
Qed.

Lemma layer_sample_same Rn D S l ca ca' v v' : layer_ok Rn D S l -> layer_cached l N ca v -> layer_cached l N' ca' v' ->
  (forall i, (i < N)%nat -> vpos D S Rn (v i)) -> (forall i, (i < N')%nat -> vpos D S Rn (v' i)) -> vagree D S Rn (v n) (v' n') ->
  layer_same (layer_sample l ca) (layer_sample l ca') Rn D S (layer_dout l) (layer_sout S l).
Proof.
  intros Hok Hca Hca' Hp Hp' Hv. assert (HN: (0 < N)%nat) by lia. assert (HN': (0 < N')%nat) by lia.
  destruct l as [L|L|L|L|D']; cbn [layer_ok layer_us layer_dout layer_sout layer_sample layer_cached] in *.
  - destruct Hok as [Hok (<- & <- & <-)]. pose proof Hok as (H1 & _ & _ & _ & H2 & _).
    apply (sampler_same _ _ (nrep L) (einsum_u L) v v'); auto. intros T HT. split; [apply einsum_u_wf; auto|]. split; [cbn; nia|].
    do 4 (split; [reflexivity|]). split; apply einsum_sampler; auto.
  - destruct Hok as [Hok (<- & <- & <-)]. pose proof Hok as (H1 & _ & _).
    apply (sampler_same _ _ (nrep L) (linsum_u L) v v'); auto. intros T HT. split; [apply linsum_u_wf; auto|]. split; [exact H1|].
    do 4 (split; [reflexivity|]). split; apply linsum_sampler; auto.
  - destruct Hok as [Hok (He & <- & <- & <-)]. pose proof Hok as (H1 & _ & _).
    apply (layer_same_ext (fun c => mbind (Ret (pair_ctx c)) (linsum2_core L ca)) (fun c => mbind (Ret (pair_ctx c)) (linsum2_core L ca'))).
    { intros c Hc. cbn [mbind]. symmetry. eapply linsum2_sample_eq; eauto. }
    { intros c Hc. cbn [mbind]. symmetry. eapply linsum2_sample_eq; eauto. }
    apply (layer_same_comp (fun c => Ret (pair_ctx c)) _ (fun c => Ret (pair_ctx c)) _ (nrep L) (nf L) (sin L) (nf L) (sout L)).
    + apply route_same.
      * intros c Hc. exists (pair_ctx c). split; auto. split; [apply pair_ctx_good; auto|]. auto.
      * intros c Hc. exists (pair_ctx c). split; auto. split; [apply pair_ctx_good; auto|]. auto.
      * intros c c' d d' Hc Hc' (Ho & _) Ed Ed' i Hi. assert (E1: pair_ctx c = d) by congruence. assert (E2: pair_ctx c' = d') by congruence. subst d d'.
        pose proof (even_out L He) as E. unfold pair_ctx, set_out, repeat_interleave. cbn [c_out get nth set_nth]. apply Ho.
        apply Nat.div_lt_upper_bound; lia.
    + apply (sampler_same _ _ (nrep L) (sum_u L) v v'); auto. intros T HT. split; [apply sum_u_wf; auto|]. split; [exact H1|].
      do 4 (split; [reflexivity|]). split; apply linsum2_sampler; auto.
  - destruct Hok as [Hok (<- & <- & <-)]. pose proof Hok as (H1 & _).
    apply (sampler_same _ _ (nrep L) (sum_u L) v v'); auto. intros T HT. split; [apply sum_u_wf; auto|]. split; [exact H1|].
    do 4 (split; [reflexivity|]). split; apply sum_sampler; auto.
  - subst D'. apply route_same.
    + intros c Hc. destruct (@rootprod_sample_ok V D S N Rn c Hc) as (c' & E & G & H1 & H2 & H3 & H4). exists c'. auto.
    + intros c Hc. destruct (@rootprod_sample_ok V D S N' Rn c Hc) as (c' & E & G & H1 & H2 & H3 & H4). exists c'. auto.
    + intros c c' d d' Hc Hc' (Ho & _) Ed Ed' i Hi.
      destruct (@rootprod_sample_ok V D S N Rn c Hc) as (x & E & _ & _ & _ & _ & H4). destruct (@rootprod_sample_ok V D S N' Rn c' Hc') as (x' & E' & _ & _ & _ & _ & H4').
      cbn [layer_sample] in Ed, Ed'. assert (x = d) by congruence. assert (x' = d') by congruence. subst x x'. rewrite H4, H4' by auto. apply Ho. lia.
Qed.

Lemma sample_layers_same Rn ls : forall D S D' S' cs cs' v v' T, layers_ok Rn ls D S D' S' ->
  layers_cached T Rn D S ls cs N v -> layers_cached T Rn D S ls cs' N' v' ->
  (forall i, (i < N)%nat -> vpos D S Rn (v i)) -> (forall i, (i < N')%nat -> vpos D S Rn (v' i)) -> vagree D S Rn (v n) (v' n') ->
  layer_same (sample_layers (combine ls cs)) (sample_layers (combine ls cs')) Rn D S D' S'.
Proof.
  induction ls as [|l ls IH]; intros D S D' S' cs cs' v v' T Hok Hca Hca' Hp Hp' Hv.
  - destruct Hok as [<- <-]. destruct cs; [|destruct Hca]. destruct cs'; [|destruct Hca']. cbn [combine].
    intros c c' Hc Hc' HT HS. exists c, c'. cbn [sample_layers]. auto 8.
  - destruct cs as [|ca cs]; [destruct Hca|]. destruct cs' as [|ca' cs']; [destruct Hca'|]. cbn [layers_ok layers_cached combine] in *.
    destruct Hok as [H1 H2]. destruct Hca as [(w & Hc1 & Ev) Hc2]. destruct Hca' as [(w' & Hc1' & Ev') Hc2'].
    apply (layer_same_ext (fun c => mbind (sample_layers (combine ls cs) c) (layer_sample l ca)) (fun c => mbind (sample_layers (combine ls cs') c) (layer_sample l ca'))); try reflexivity.
    pose proof (layer_chain T _ _ _ _ H1) as C1.
    eapply layer_same_comp.
    + eapply IH; [exact H2|exact Hc2|exact Hc2'| | |].
      * intros i Hi. eapply evals_pos; [exact C1|auto].
      * intros i Hi. eapply evals_pos; [exact C1|auto].
      * eapply evals_ext; [exact C1|exact Hv].
    + apply (layer_sample_same Rn D S l ca ca' w w'); auto.
      * intros i Hi d s r Hd Hs Hr. rewrite <- Ev; auto. apply Hp; auto.
      * intros i Hi d s r Hd Hs Hr. rewrite <- Ev'; auto. apply Hp'; auto.
      * intros d s r Hd Hs Hr. rewrite <- Ev, <- Ev' by auto. apply Hv; auto.
Qed.

Variable E : einet V.
Hypothesis HE : einet_ok E.
Let lf := leaf_of (e_leaf E).

(** The classes given for rows [n] and [n'], if any, are the same. *)
Definition class_same (a a' : sargs (V := V)) : Prop :=
  match a_class a, a_class a' with
  | CNone, CNone => True
  | CInt y, CInt y' => y = y'
  | CList cs, CList cs' => nth n cs 0%nat = nth n' cs' 0%nat
  | CInt y, CList cs' => y = nth n' cs' 0%nat
  | CList cs, CInt y' => nth n cs 0%nat = y'
  | _, _ => False
  end.
Definition args_same (a a' : sargs (V := V)) : Prop :=
  num_samples a = N /\ num_samples a' = N' /\ a_mpe a = true /\ a_mpe a' = true /\ a_tsum a = a_tsum a' /\ a_tsum a <> 0 /\
  class_ok E a /\ class_ok E a' /\ class_same a a'.

Lemma class_step_same a a' : args_same a a' ->
  exists c c', class_step E a (init_ctx a) = Ret (N, c) /\ class_step E a' (init_ctx a') = Ret (N', c') /\
    cgood c N 1 (e_K E) (e_R E) /\ cgood c' N' 1 (e_K E) (e_R E) /\ same_row 1 c c' /\ c_tsum c = a_tsum a.
Proof.
  intros (EN & EN' & Hm & Hm' & ET & HT & Hc & Hc' & HS). pose proof (eo_R E HE) as HR. pose proof (eo_K E HE) as HK.
  assert (HN: (0 < N)%nat) by lia. assert (HN': (0 < N')%nat) by lia.
  assert (DET: forall x X, x = num_samples X -> (0 < x)%nat -> a_mpe X = true -> a_tsum X <> 0 -> class_ok E X ->
     exists c, class_step E X (init_ctx X) = Ret (x, c) /\ cgood c x 1 (e_K E) (e_R E) /\ c_mpe c = true /\ c_tsum c = a_tsum X).
  { intros x X -> HX H1 H2 H3. destruct (class_step_out E HE X H3 HX H2) as [O P]. destruct (P H1) as (y & Ey).
    destruct (O (fun _ _ => True) (Ok y)) as (c & Z & G & M1 & T1); [rewrite Ey; constructor|]. assert (y = (num_samples X, c)) by congruence. subst y.
    exists c. split; auto. split; auto. split; congruence. }
  destruct (DET N a (eq_sym EN) HN Hm HT Hc) as (c & Ec & Gc & Mc & Tc).
  destruct (DET N' a' (eq_sym EN') HN' Hm' ltac:(congruence) Hc') as (c' & Ec' & Gc' & Mc' & Tc').
  exists c, c'. do 4 (split; auto). split; [|auto].
  unfold same_row. rewrite Mc, Mc', Tc, Tc'. cut ((forall d, (d < 1)%nat -> get (c_out c) [n; d] = get (c_out c') [n'; d]) /\ get (c_rep c) [n] = get (c_rep c') [n']); [tauto|].
  clear DET. unfold class_step in Ec, Ec'. rewrite EN in Ec. rewrite EN' in Ec'. unfold class_ok in Hc, Hc'. rewrite EN in Hc. rewrite EN' in Hc'. unfold class_same in HS.
  destruct (Nat.ltb_spec 1 (e_K E)) as [HK1|HK1].
  - destruct (a_class a) as [|y|l], (a_class a') as [|y'|l']; try contradiction.
    + destruct (eo_root E HE HK1) as (s & Es & Hok & S1 & S2 & S3 & S4). rewrite Es in Ec, Ec'. cbn [attr lift mbind] in Ec, Ec'.
      pose proof (layer_sample_same 1 1 (e_K E) (LSum s) None None vone vone) as L.
      cbn [layer_ok layer_dout layer_sout layer_sample layer_cached] in L. unfold dims in L. rewrite S1, S3 in L.
      assert (P1: forall m i, (i < m)%nat -> vpos 1 (e_K E) 1 (vone i)) by (intros m i _ d k r _ _ _; unfold vone; lra).
      assert (L': layer_same (sum_sample s None) (sum_sample s None) 1 1 (e_K E) 1 1).
      { refine (L _ _ _ (P1 N) (P1 N') (fun d k r _ _ _ => eq_refl)); [auto|left; auto|left; auto]. }
      pose proof (init_ctx_good a 1 1 ltac:(lia) ltac:(lia)) as G. rewrite EN in G. pose proof (init_ctx_good a' 1 1 ltac:(lia) ltac:(lia)) as G'. rewrite EN' in G'.
      destruct (L' (init_ctx a) (init_ctx a') G G') as (d & d' & Ed & Ed' & _ & _ & (So & Sr & _) & _).
      { exact HT. } { unfold same_row, init_ctx. cbn [c_out c_rep c_mpe c_tsum full get]. auto. }
      rewrite Ed in Ec. rewrite Ed' in Ec'. cbn [mbind] in Ec, Ec'. assert (d = c) by congruence. assert (d' = c') by congruence. subst d d'. auto.
    + subst y'. assert (E1: set_out (init_ctx a) (full [N; 1%nat] y) = c) by congruence. assert (E2: set_out (init_ctx a') (full [N'; 1%nat] y) = c') by congruence.
      subst c c'. cbn. auto.
    + assert (E1: set_out (init_ctx a) (full [N; 1%nat] y) = c) by congruence. assert (E2: set_out (init_ctx a') (mkT [length l'; 1%nat] (fun idx => nth (hd 0%nat idx) l' 0%nat)) = c') by congruence.
      subst c c'. cbn. auto.
    + assert (E1: set_out (init_ctx a') (full [N'; 1%nat] y') = c') by congruence. assert (E2: set_out (init_ctx a) (mkT [length l; 1%nat] (fun idx => nth (hd 0%nat idx) l 0%nat)) = c) by congruence.
      subst c c'. cbn. auto.
    + assert (E1: set_out (init_ctx a') (mkT [length l'; 1%nat] (fun idx => nth (hd 0%nat idx) l' 0%nat)) = c') by congruence. assert (E2: set_out (init_ctx a) (mkT [length l; 1%nat] (fun idx => nth (hd 0%nat idx) l 0%nat)) = c) by congruence.
      subst c c'. cbn. auto.
  - assert (E1: init_ctx a = c) by congruence. assert (E2: init_ctx a' = c') by congruence. subst c c'. cbn. auto.
Qed.

Lemma mixing_step_same cs cs' (v v' : nat -> nat -> nat -> R) c c' : c_tsum c <> 0 ->
  mcached E N (ca_mixing cs) v -> mcached E N' (ca_mixing cs') v' ->
  (forall y r, (y < e_K E)%nat -> (r < e_R E)%nat -> v n y r = v' n' y r) ->
  cgood c N 1 (e_K E) (e_R E) -> cgood c' N' 1 (e_K E) (e_R E) -> same_row 1 c c' ->
  exists d d', mixing_step E cs N c = Ret d /\ mixing_step E cs' N' c' = Ret d' /\
    cgood d N 1 (e_K E) (e_R E) /\ cgood d' N' 1 (e_K E) (e_R E) /\ same_row 1 d d' /\ c_tsum d = c_tsum c.
Proof.
  intros HT Hca Hca' Ev Hc Hc' HS. unfold mixing_step. destruct (Nat.ltb_spec 1 (e_R E)) as [HR|HR].
  2: { exists c, c'. auto 8. }
  destruct (eo_mix E HE HR) as (m & Emx & Hok & Hs1 & Hs2). rewrite Emx. cbn [attr lift mbind].
  destruct (Hca HR m Emx) as (w & Hw & Ew). destruct (Hca' HR m Emx) as (w' & Hw' & Ew'). pose proof Hok as (HSn & _ & _).
  pose proof HS as (So1 & Sr1 & Sm1 & Sm2 & St1).
  pose proof Hc as Hc0. rewrite <- Hs2 in Hc0. pose proof Hc' as Hc0'. rewrite <- Hs2 in Hc0'.
  destruct (@mixing_sampler V m N _ (ca_mixing cs) w (c_tsum c) c Hok HT Hw Hc0 eq_refl) as (lw & Ef & Hlw).
  destruct (@mixing_sampler V m N' _ (ca_mixing cs') w' (c_tsum c) c' Hok HT Hw' Hc0' (eq_sym St1)) as (lw' & Ef' & Hlw').
  destruct (choose_same c c' lw lw' _ _ _ _ Sm1 Sm2 HSn Hlw Hlw') as (t & t' & Et & Et' & Sht & Sht' & Bt & Bt' & Eq).
  assert (VW: forall M (t : tensor nat), shape t = [M; 1%nat] -> exists t', view [M] t = Ok t' /\ shape t' = [M] /\
     forall i, (i < M)%nat -> get t' [i] = get t [i; 0%nat]).
  { intros M x Sx. unfold view. rewrite Sx. cbn [numel]. rewrite !Nat.mul_1_r, Nat.eqb_refl. eexists. split; [reflexivity|].
    split; [reflexivity|]. intros i Hi. cbn [get ravel numel unravel].
    rewrite !Nat.mul_1_r, Nat.add_0_r, Nat.div_1_r, Nat.mod_1_r. reflexivity. }
  destruct (VW _ _ Sht) as (p & Ep & Sp & Gp). destruct (VW _ _ Sht') as (p' & Ep' & Sp' & Gp').
  rewrite Ef, Ef', Et, Et'. cbn [mbind set_out c_out]. rewrite Ep, Ep'. cbn [lift mbind set_out c_n c_mpe c_tsum].
  pose proof Hc as (K1 & K2 & K3 & K4 & K5). pose proof Hc' as (K1' & K2' & K3' & K4' & K5').
  eexists; eexists. split; [reflexivity|]. split; [reflexivity|].
  split. { split; [exact K1|]. split; [exact K2|]. split; [exact K3|]. split; [exact Sp|]. intros i Hi. cbn [c_rep]. rewrite Gp by auto. rewrite <- Hs1. apply Bt; auto. }
  split. { split; [exact K1'|]. split; [exact K2'|]. split; [exact K3'|]. split; [exact Sp'|]. intros i Hi. cbn [c_rep]. rewrite Gp' by auto. rewrite <- Hs1. apply Bt'; auto. }
  split; [|reflexivity]. unfold same_row. cbn [c_out c_rep c_mpe c_tsum]. split; [exact So1|]. split; [|auto].
  rewrite Gp, Gp' by auto. apply Eq; [lia|]. intros k Hk. rewrite So1 by lia. assert (Hy: (get (c_out c') [n'; 0%nat] < e_K E)%nat) by (apply K3'; lia). unfold mixpost.
  assert (Q: forall r, (r < sin m)%nat -> w n (get (c_out c') [n'; 0%nat]) r = w' n' (get (c_out c') [n'; 0%nat]) r).
  { intros r Hr. rewrite Hs1 in Hr. rewrite Ew, Ew' by auto. apply Ev; auto. }
  rewrite (rsum_ext (sin m) _ (fun r => mixing_w m (c_tsum c) (get (c_out c') [n'; 0%nat]) r * w' n' (get (c_out c') [n'; 0%nat]) r)) by (intros r Hr; rewrite Q by auto; reflexivity).
  rewrite Q by auto. reflexivity.
Qed.

Lemma core_same a a' cs cs' v v' T md : args_same a a' -> lf_ctx lf = true -> lf_mode lf = Some md ->
  cs_ok E T N cs v -> cs_ok E T N' cs' v' ->
  (forall i, (i < N)%nat -> vpos (leaf_out E) (e_L E) (e_R E) (v i)) -> (forall i, (i < N')%nat -> vpos (leaf_out E) (e_L E) (e_R E) (v' i)) ->
  vagree (leaf_out E) (e_L E) (e_R E) (v n) (v' n') ->
  exists t t', core E a cs = Ret t /\ core E a' cs' = Ret t' /\ shape t = [N; e_C E; e_F E] /\ shape t' = [N'; e_C E; e_F E] /\
  forall c f, (c < e_C E)%nat -> (f < e_F E)%nat -> get t [n; c; f] = get t' [n'; c; f].
Proof.
  intros Ha Hctx Emd [Hl Hmx] [Hl' Hmx'] Hp Hp' Hv. assert (HN: (0 < N)%nat) by lia. assert (HN': (0 < N')%nat) by lia.
  pose proof Ha as (EN & EN' & Hm & Hm' & ET & HT & _).
  destruct (class_step_same a a' Ha) as (c1 & c1' & E1 & E1' & G1 & G1' & S1 & T1).
  pose proof (layers_chain T _ _ _ _ _ _ (eo_layers E HE)) as CH.
  destruct (mixing_step_same cs cs' _ _ c1 c1' ltac:(rewrite T1; auto) Hmx Hmx') with (1 := fun y r Hy Hr => evals_ext _ _ _ _ _ _ _ _ CH Hv 0%nat y r ltac:(lia) Hy Hr) as (c2 & c2' & E2 & E2' & G2 & G2' & S2 & T2); auto.
  destruct (sample_layers_same (e_R E) (e_layers E) (leaf_out E) (e_L E) 1 (e_K E) (ca_layers cs) (ca_layers cs') v v' T (eo_layers E HE) Hl Hl' Hp Hp' Hv c2 c2' G2 G2') as (c3 & c3' & E3 & E3' & G3 & G3' & S3 & _); auto.
  { rewrite T2, T1. auto. }
  unfold core, walk. rewrite E1, E1'. cbn [mbind fst snd]. rewrite E2, E2'. cbn [mbind]. rewrite E3, E3'. cbn [mbind]. rewrite Hm, Hm'. cbn [orb].
  pose proof (eo_lC E HE) as EC. pose proof (eo_lF E HE) as EF. pose proof (eo_lL E HE) as EL'. pose proof (eo_lR E HE) as ER. fold lf in EC, EF, EL', ER.
  assert (HG: forall r f, (r < lf_R lf)%nat -> (f < lf_F lf)%nat -> (sgrp E r f < leaf_out E)%nat) by (rewrite EF, ER; intros; apply sgrp_lt; auto).
  destruct (bottom_routes E HE c3 N Hctx HN G3) as (k & Hk & Eb). destruct (bottom_routes E HE c3' N' Hctx HN' G3') as (k' & Hk' & Eb').
  rewrite Eb, Eb'. pose proof G3' as (_ & _ & _ & _ & Gr'). rewrite <- EL', <- ER in G3, G3'.
  destruct (leaf_mode_prog lf k c3 N (leaf_out E) (sgrp E) md G3 HG Hk Emd) as (t & Et & St & Gt).
  destruct (leaf_mode_prog lf k' c3' N' (leaf_out E) (sgrp E) md G3' HG Hk' Emd) as (t' & Et' & St' & Gt').
  rewrite EC, EF in *. exists t, t'. do 4 (split; auto). intros ch f Hch Hf. rewrite Gt, Gt' by auto. destruct S3 as (So & Sr & _). rewrite Sr.
  rewrite So; [reflexivity|]. apply HG; [rewrite ER; auto|auto].
Qed.

(** ** Results *)
Theorem evidence_same a a' e e' : args_same a a' -> a_ev a = Some e -> a_ev a' = Some e' -> check_args E a = Ok tt -> check_args E a' = Ok tt ->
  input_ok E N e (a_ms a) -> input_ok E N' e' (a_ms a') -> lf_ctx lf = true -> lf_mode lf <> None ->
  (forall c f, (c < e_C E)%nat -> (f < e_F E)%nat -> row e (a_ms a) n c f = row e' (a_ms a') n' c f) ->
  exists t t', sample E a = Ret t /\ sample E a' = Ret t' /\ shape t = shape e /\ shape t' = shape e' /\
  forall c f, (c < e_C E)%nat -> (f < e_F E)%nat -> entry t n c f = entry t' n' c f.
Proof.
  intros Ha Hev Hev' Hch Hch' Hin Hin' Hctx Hmd Hrow. destruct (lf_mode lf) as [md|] eqn:Emd; [|congruence].
  destruct (forward_full_rep E HE N e (a_ms a) Hin) as (y & cs & Ey & _ & _ & v & Hv & Hc1 & Hc2). fold lf in Hv.
  destruct (forward_full_rep E HE N' e' (a_ms a') Hin') as (y' & cs' & Ey' & _ & _ & v' & Hv' & Hc1' & Hc2'). fold lf in Hv'.
  assert (Ec: ev_caches E a = Ok cs) by (unfold ev_caches; rewrite Hev, Ey; auto).
  assert (Ec': ev_caches E a' = Ok cs') by (unfold ev_caches; rewrite Hev', Ey'; auto).
  rewrite (sample_core E a _ Hch Ec), (sample_core E a' _ Hch' Ec').
  assert (PV: forall M x (u : nat -> vals), (forall i, (i < M)%nat -> vagree (leaf_out E) (e_L E) (e_R E) (u i) (leafval (fnet E) (lval (pdf lf) (x i)))) ->
    forall i, (i < M)%nat -> vpos (leaf_out E) (e_L E) (e_R E) (u i)).
  { intros M x u Hu i Hi d s r Hd Hs Hr. rewrite (Hu i Hi) by auto. apply (leafval_pos (fnet E)); auto. intros. apply lval_pos. }
  destruct (core_same a a' cs cs' v v' 1 md Ha Hctx Emd) as (t & t' & Et & Et' & St & St' & Gt).
  - split; auto. intros HR m Em. eexists. split; [apply Hc2; auto|]. reflexivity.
  - split; auto. intros HR m Em. eexists. split; [apply Hc2'; auto|]. reflexivity.
  - eapply PV; eauto.
  - eapply PV; eauto.
  - intros d s r Hd Hs Hr. rewrite (Hv n Hn), (Hv' n' Hn') by auto. refine (leafval_ext (fnet E) _ _ _ d s r Hd Hs Hr).
    intros c f l r0 Hc Hf _ _. unfold lval. rewrite Hrow; auto.
  - rewrite Et, Et'. cbn [mbind]. unfold finish. rewrite Hev, Hev'.
    destruct (merge_ok E N e (a_ms a) t Hin St) as (o & Eo & So & Go). destruct (merge_ok E N' e' (a_ms a') t' Hin' St') as (o' & Eo' & So' & Go').
    rewrite Eo, Eo'. cbn [lift]. exists o, o'. do 4 (split; auto). intros c f Hc Hf. rewrite Go, Go', Hrow, Gt by auto. reflexivity.
Qed.
Theorem free_same a a' : args_same a a' -> a_ev a = None -> a_ev a' = None -> check_args E a = Ok tt -> check_args E a' = Ok tt ->
  lf_ctx lf = true -> lf_mode lf <> None ->
  exists t t', sample E a = Ret t /\ sample E a' = Ret t' /\ shape t = [N; e_C E; e_F E] /\ shape t' = [N'; e_C E; e_F E] /\
  forall c f, (c < e_C E)%nat -> (f < e_F E)%nat -> entry t n c f = entry t' n' c f.
Proof.
  intros Ha Hev Hev' Hch Hch' Hctx Hmd. destruct (lf_mode lf) as [md|] eqn:Emd; [|congruence].
  assert (Ec: ev_caches E a = Ok (no_caches E)) by (unfold ev_caches; rewrite Hev; auto).
  assert (Ec': ev_caches E a' = Ok (no_caches E)) by (unfold ev_caches; rewrite Hev'; auto).
  rewrite (sample_core E a _ Hch Ec), (sample_core E a' _ Hch' Ec').
  assert (PV: forall M i, (i < M)%nat -> vpos (leaf_out E) (e_L E) (e_R E) (vone i)) by (intros M i _ d s r _ _ _; unfold vone; lra).
  destruct (core_same a a' (no_caches E) (no_caches E) vone vone 1 md Ha Hctx Emd (no_caches_ok E HE _ _) (no_caches_ok E HE _ _) (PV N) (PV N')) as (t & t' & Et & Et' & St & St' & Gt).
  - intros d s r _ _ _. reflexivity.
  - rewrite Et, Et'. cbn [mbind]. unfold finish. rewrite Hev, Hev'. exists (tmap Some t), (tmap Some t'). do 4 (split; auto).
    intros c f Hc Hf. unfold entry. cbn [tmap shape get]. rewrite St, St'. cbn [ix]. rewrite Gt by auto. reflexivity.
Qed.
End Rows.
