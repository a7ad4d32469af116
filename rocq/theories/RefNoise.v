(** The law of differentiable sampling through a whole network. *)
From Coq Require Import List Arith Lia Bool ZArith Reals Lra.
Import ListNotations.
From Verif Require Import Base RSum Num Tensor Prob Layers Circuit Net RefFwd RefSample RefLaw Leaf Perm RefLeaf RefLeafS Einet RefNet RefEinet RefEinetS RefMpe Diff TypeChecks RefDiff
  Content Mean RefGumbel PropGumbel NoiseLaw.
Local Open Scope R_scope.
Local Arguments Nat.div : simpl never.
Local Arguments Nat.modulo : simpl never.
Local Arguments Nat.sub : simpl never.
Local Arguments Nat.mul : simpl never.
Local Arguments Nat.add : simpl never.

(** * The uniform numbers of one call *)
(** Call [i] of torch.rand draws the entries [i :: _]. *)
Definition streams (u : noise) (i : nat) (idx : list nat) : R := u (i :: idx).
(** A draw: the number of the call, the number of rows per sample and the number of options of each row. *)
Notation choice := (nat * nat * nat)%type.
Definition tag (x : choice) : nat := fst (fst x).
Definition layer_choice (l : layer) (i : nat) : choice :=
  match l with
  | LEin L => (i, einsum_features_out L, (sin L * sin L)%nat)
  | LLin L => (i, linsum_features_out L, sin L)
  | LLin2 L => (i, nf L, sin L)
  | LSum L => (i, nf L, sin L)
  | LRoot _ => (i, 0%nat, 1%nat)
  end.
Fixpoint layer_choices (ls : list layer) (j : nat) : list choice :=
  match ls with [] => [] | l :: ls' => layer_choices ls' (S j) ++ [layer_choice l (2 + j)] end.
Definition net_choices {V} (E : einet V) : list choice :=
  (if (1 <? e_K E)%nat then [(0%nat, 1%nat, e_K E)] else []) ++ (if (1 <? e_R E)%nat then [(1%nat, 1%nat, e_R E)] else []) ++ layer_choices (e_layers E) 0.
Definition uniforms (N : nat) (cs : list choice) : list entry_of := flat_map (fun x => tagged (tag x) N (snd (fst x)) (snd x)) cs.
Definition gaps (N : nat) (cs : list choice) : R := lsum (fun x => gap3 N (snd (fst x)) (snd x)) cs.

Lemma uniforms_app N a b : uniforms N (a ++ b) = uniforms N a ++ uniforms N b.
Proof. apply flat_map_app. Qed.
Lemma gaps_app N a b : gaps N (a ++ b) = gaps N a + gaps N b.
Proof. apply lsum_app. Qed.
Lemma layer_tag l i : tag (layer_choice l i) = i.
Proof. destruct l; reflexivity. Qed.
Lemma layer_tags ls : forall j, (forall x, In x (layer_choices ls j) -> (2 + j <= tag x)%nat) /\ NoDup (map tag (layer_choices ls j)).
Proof.
  induction ls as [|l ls IH]; intros j; cbn [layer_choices]; [split; [intros x []|constructor]|]. destruct (IH (S j)) as [H1 H2]. split.
  - intros x Hx. apply in_app_iff in Hx as [Hx|[<-|[]]]; [apply H1 in Hx; lia|rewrite layer_tag; lia].
  - rewrite map_app. cbn [map]. rewrite layer_tag. apply NoDup_Add with (a := (2 + j)%nat) (l := map tag (layer_choices ls (S j))).
    + rewrite <- (app_nil_r (map tag (layer_choices ls (S j)))) at 1. apply Add_app.
    + split; auto. intros C. apply in_map_iff in C as (x & E & Hx). apply H1 in Hx. lia.
Qed.
Lemma net_tags {V} (E : einet V) : NoDup (map tag (net_choices E)).
Proof.
  destruct (layer_tags (e_layers E) 0) as [H1 H2]. unfold net_choices. rewrite !map_app.
  assert (N1: ~ In 1%nat (map tag (layer_choices (e_layers E) 0))) by (intros C; apply in_map_iff in C as (x & E' & Hx); apply H1 in Hx; lia).
  assert (N0: ~ In 0%nat (map tag (layer_choices (e_layers E) 0))) by (intros C; apply in_map_iff in C as (x & E' & Hx); apply H1 in Hx; lia).
  destruct (1 <? e_K E)%nat, (1 <? e_R E)%nat; cbn [map app tag fst]; repeat constructor; auto. intros [C|C]; [discriminate|auto].
Qed.
Lemma nodup_map_inj {X Y} (f : X -> Y) l x y : NoDup (map f l) -> In x l -> In y l -> f x = f y -> x = y.
Proof.
  induction l as [|z l IH]; intros HN Hx Hy E; [destruct Hx|]. cbn [map] in HN. inversion HN as [|? ? H1 H2]; subst.
  destruct Hx as [->|Hx], Hy as [->|Hy]; auto.
  - exfalso. apply H1. rewrite E. apply in_map. auto.
  - exfalso. apply H1. rewrite <- E. apply in_map. auto.
Qed.
Lemma nodup_uniforms N cs : NoDup (map tag cs) -> NoDup (uniforms N cs).
Proof.
  intros H. apply nodup_flat_map; [apply (NoDup_map_inv tag); auto|intros; apply nodup_tagged|].
  intros x y i Hx Hy H1 H2. apply (nodup_map_inj tag cs); auto. apply in_map_iff in H1 as (? & <- & _). apply in_map_iff in H2 as (? & E & _). congruence.
Qed.
Lemma in_tagged i N D K n d k : (n < N)%nat -> (d < D)%nat -> (k < K)%nat -> In [i; n; d; k] (tagged i N D K).
Proof. intros. apply (in_map (cons i)). apply in_entries; auto. Qed.

Section Steps.
Context {V : Type}.
(** A differentiable step encodes the outcome of the index step that the noise selects. *)
Definition dlaw (f : sctx -> M V sctx) (df : noise -> dctx -> res dctx) (I : list entry_of) (N Rn Din Sin Dout Sout : nat) (d : R) : Prop :=
  forall c, cgood c N Dout Sout Rn -> c_mpe c = false -> c_tsum c <> 0 ->
  law (f c) I (fun c' => cgood c' N Din Sin Rn /\ c_mpe c' = false /\ c_tsum c' = c_tsum c)
    (fun c' u => forall cd, ohctx cd c N Dout Sout Rn -> exists cd', df u cd = Ok cd' /\ ohctx cd' c' N Din Sin Rn) d.

Lemma picked lwd u kt N D K (w : nat -> nat -> nat -> R) i (t : tensor nat) : (0 < K)%nat -> lrows lwd N D K w -> picks lwd (fun idx => u (i :: idx)) false kt N D K ->
  cube (tagged i N D K) u -> (forall n d, (n < N)%nat -> (d < D)%nat -> nargmax K (fun k => Fin (ln (w n d k) + rgumbel (u [i; n; d; k]))) = get t [n; d]) ->
  forall n d, (n < N)%nat -> (d < D)%nat -> get kt [n; d] = get t [n; d].
Proof.
  intros HK [_ Gw] Hp Hu Ht n d Hn Hd. destruct (Hp n d Hn Hd) as (_ & _ & E). rewrite E; auto.
  - rewrite <- Ht by auto. apply nargmax_ext. intros k Hk. destruct (Gw n d k Hn Hd Hk) as [_ ->]. reflexivity.
  - intros k Hk. apply (Hu [i; n; d; k]). apply in_tagged; auto.
Qed.

Lemma sampler_dlaw f df i N Rn (U : R -> ulayer) v D S D' S' K :
  (forall T, T <> 0 -> uwf Rn (U T) /\ (0 < uK (U T))%nat /\ uDin (U T) = D /\ uSin (U T) = S /\
     uDout (U T) = D' /\ uSout (U T) = S' /\ uK (U T) = K /\ sampler f N Rn (U T) v T /\ dsampler df N Rn (U T) v T) ->
  (forall n, (n < N)%nat -> vpos D S Rn (v n)) ->
  dlaw f (fun u => df (streams u i)) (tagged i N D' K) N Rn D S D' S' (gap3 N D' K).
Proof.
  intros H Hv c Gc Hm HT. destruct (H (c_tsum c) HT) as (Hw & HK & <- & <- & <- & <- & <- & Hs & Hd). set (ul := U (c_tsum c)) in *.
  pose proof Gc as (Hcn & So & Go & Sr & Gr). destruct (Hs c Gc eq_refl) as (lw & g & Ef & Hlw & Hg). rewrite Ef.
  assert (HS1: forall n d, (n < N)%nat -> (d < uDout ul)%nat ->
     rsum (uK ul) (fun k => upost ul (v n) d (get (c_out c) [n; d]) (get (c_rep c) [n]) k) = 1).
  { intros n d Hn' Hd'. apply (upost_sum Rn); auto. }
  assert (Pr: forall d, (d < uDin ul)%nat -> (upar ul d < uDout ul)%nat) by (intros; apply (uw_par _ _ Hw); auto).
  set (P := tagged i N (uDout ul) (uK ul)).
  eapply law_mono; [rewrite <- (app_nil_r P); apply (law_bind (choose c lw) g P [] (fun t => shape t = [N; uDout ul] /\ forall n d, (n < N)%nat -> (d < uDout ul)%nat -> (get t [n; d] < uK ul)%nat)
    (fun t u => forall n d, (n < N)%nat -> (d < uDout ul)%nat -> nargmax (uK ul) (fun k => Fin (ln (upost ul (v n) d (get (c_out c) [n; d]) (get (c_rep c) [n]) k) + rgumbel (u [i; n; d; k]))) = get t [n; d])
    (fun c' => cgood c' N (uDin ul) (uSin ul) Rn /\ c_mpe c' = false /\ c_tsum c' = c_tsum c)
    (fun t c' u => exists x, c' = set_out c x /\ forall n d', (n < N)%nat -> (d' < uDin ul)%nat -> get x [n; d'] = usel ul (upar ul d') (get (c_out c) [n; upar ul d']) (get t [n; upar ul d']) d')
    (gap3 N (uDout ul) (uK ul)) 0)| | |].
  - rewrite app_nil_r. apply nodup_tagged.
  - apply law_choose; auto.
  - intros t [St Gt]. destruct (Hg t St Gt) as (x & Ex & Sx & Gx). rewrite Ex. apply law_ret; [|intros u; exists x; auto].
    split; [|split; auto]. split; [exact Hcn|]. split; [exact Sx|]. split; [|split; auto].
    intros n d Hn' Hd'. cbn [set_out c_out]. rewrite Gx by auto. pose proof (Pr d Hd'). apply (uw_sel _ _ Hw); auto. apply (uw_kids _ _ Hw); auto.
  - auto.
  - intros c' u (Gc' & _) Hu (t & [St Gt] & Ht & x & -> & Gx) cd Hc.
    destruct (Hd (streams u i) cd c Hc eq_refl) as (lwd & kt & oh & Edf & Hlwd & Sk & Hp & Hoh). rewrite Hm in Hp.
    pose proof (picked lwd u kt N (uDout ul) (uK ul) _ i t HK Hlwd Hp Hu Ht) as Ek.
    exists (dset_out cd oh). split; [exact Edf|]. destruct Hc as (_ & Hn & Ho & Hr & Em & Et).
    split; [exact Gc'|]. split; [exact Hn|]. split; [|split; [exact Hr|split; auto]].
    cbn [dset_out d_out set_out c_out]. apply Hoh. intros n d' Hn' Hd'. rewrite Gx by auto. f_equal. symmetry. apply Ek; auto.
  - lra.
Qed.
Lemma dlaw_ext f f' df df' I N Rn D S D' S' d : (forall c, cgood c N D' S' Rn -> f c = f' c) ->
  (forall u cd c, ohctx cd c N D' S' Rn -> df u cd = df' u cd) -> dlaw f df I N Rn D S D' S' d -> dlaw f' df' I N Rn D S D' S' d.
Proof.
  intros E1 E2 L c Gc Hm HT. rewrite <- E1 by auto. eapply law_mono; [apply L; auto|auto| |lra]. intros c' u _ _ H cd Hc. rewrite <- (E2 u cd c Hc). auto.
Qed.
Lemma dlaw_comp f1 f2 g1 g2 I J N Rn D0 S0 D1 S1 D2 S2 d1 d2 : NoDup (I ++ J) -> dlaw f1 g1 I N Rn D1 S1 D2 S2 d1 -> dlaw f2 g2 J N Rn D0 S0 D1 S1 d2 ->
  dlaw (fun c => mbind (f1 c) f2) (fun u c => x <- g1 u c ;; g2 u x) (I ++ J) N Rn D0 S0 D2 S2 (d1 + d2).
Proof.
  intros HN L1 L2 c Gc Hm HT. eapply law_mono; [apply (law_bind (f1 c) f2 I J (fun c' => cgood c' N D1 S1 Rn /\ c_mpe c' = false /\ c_tsum c' = c_tsum c)
    (fun c' u => forall cd, ohctx cd c N D2 S2 Rn -> exists cd', g1 u cd = Ok cd' /\ ohctx cd' c' N D1 S1 Rn)
    (fun c' => cgood c' N D0 S0 Rn /\ c_mpe c' = false /\ c_tsum c' = c_tsum c)
    (fun c1 c' u => forall cd, ohctx cd c1 N D1 S1 Rn -> exists cd', g2 u cd = Ok cd' /\ ohctx cd' c' N D0 S0 Rn) d1 d2 HN)| | |].
  - apply L1; auto.
  - intros c1 (G1 & M1 & T1). eapply law_mono; [apply (L2 c1 G1 M1)|intros c' (A & B & C); rewrite <- T1; auto|auto|lra]. rewrite T1. auto.
  - auto.
  - intros c' u _ _ (c1 & _ & H1 & H2) cd Hc. destruct (H1 cd Hc) as (cd1 & E1 & O1). destruct (H2 cd1 O1) as (cd2 & E2 & O2). exists cd2. rewrite E1. cbn [bind]. auto.
  - lra.
Qed.
Lemma dlaw_route f df N Rn D S D' S' : (forall c, cgood c N D' S' Rn -> exists c', f c = Ret c' /\ cgood c' N D S Rn /\ c_mpe c' = c_mpe c /\ c_tsum c' = c_tsum c /\
    forall u cd, ohctx cd c N D' S' Rn -> exists cd', df u cd = Ok cd' /\ ohctx cd' c' N D S Rn) -> dlaw f df [] N Rn D S D' S' 0.
Proof.
  intros H c Gc Hm HT. destruct (H c Gc) as (c' & E & G' & M' & T' & R'). rewrite E. apply law_ret; auto. split; auto. split; congruence.
Qed.

Lemma dlayer_law Rn D S l N ca v i : layer_ok Rn D S l -> (0 < N)%nat -> layer_cached l N ca v ->
  (forall n, (n < N)%nat -> vpos D S Rn (v n)) ->
  dlaw (layer_sample l ca) (fun u => dlayer_sample l ca (streams u i)) (uniforms N [layer_choice l i]) N Rn D S (layer_dout l) (layer_sout S l) (gaps N [layer_choice l i]).
Proof.
  intros Hok HN Hca Hv. unfold uniforms, gaps. cbn [flat_map lsum]. rewrite app_nil_r, Rplus_0_r.
  destruct l as [L|L|L|L|D']; cbn [layer_ok layer_us layer_dout layer_sout layer_sample dlayer_sample layer_cached layer_choice tag fst snd] in *.
  - destruct Hok as [Hok (<- & <- & <-)]. pose proof Hok as (H1 & _ & _ & _ & H2 & _).
    apply (sampler_dlaw _ (deinsum_sample L ca) i N (nrep L) (einsum_u L) v); auto. intros T HT. split; [apply einsum_u_wf; auto|]. split; [cbn; nia|].
    do 5 (split; [reflexivity|]). split; [apply einsum_sampler; auto|apply deinsum_dsampler; auto].
  - destruct Hok as [Hok (<- & <- & <-)]. pose proof Hok as (H1 & _ & _).
    apply (sampler_dlaw _ (dlinsum_sample L ca) i N (nrep L) (linsum_u L) v); auto. intros T HT. split; [apply linsum_u_wf; auto|]. split; [exact H1|].
    do 5 (split; [reflexivity|]). split; [apply linsum_sampler; auto|apply dlinsum_dsampler; auto].
  - destruct Hok as [Hok (He & <- & <- & <-)]. pose proof Hok as (H1 & _ & _).
    apply (dlaw_ext (fun c => mbind (Ret (pair_ctx c)) (linsum2_core L ca)) _ (fun u c => x <- Ok (dpair_ctx c) ;; dlinsum2_core L ca (streams u i) x)).
    { intros c Hc. cbn [mbind]. symmetry. eapply linsum2_sample_eq; eauto. }
    { intros u cd c Hc. cbn [bind]. symmetry. eapply dlinsum2_sample_eq; eauto. }
    change (tagged i N (nf L) (sin L)) with ([] ++ tagged i N (nf L) (sin L)). rewrite <- (Rplus_0_l (gap3 N (nf L) (sin L))).
    apply (dlaw_comp (fun c => Ret (pair_ctx c)) _ (fun _ c => Ok (dpair_ctx c)) (fun u => dlinsum2_core L ca (streams u i)) [] _ N (nrep L) (nf L) (sin L) (nf L) (sout L)); [apply nodup_tagged| |].
    + apply dlaw_route. intros c Gc. exists (pair_ctx c). split; [auto|]. split; [apply pair_ctx_good; auto|]. split; [reflexivity|]. split; [reflexivity|].
      intros u cd Hc. exists (dpair_ctx cd). split; [auto|]. apply dpair_good; auto.
    + apply (sampler_dlaw _ (dlinsum2_core L ca) i N (nrep L) (sum_u L) v); auto. intros T HT. split; [apply sum_u_wf; auto|]. split; [exact H1|].
      do 5 (split; [reflexivity|]). split; [apply linsum2_sampler; auto|apply dlinsum2_dsampler; auto].
  - destruct Hok as [Hok (<- & <- & <-)]. pose proof Hok as (H1 & _).
    apply (sampler_dlaw _ (dsum_sample L ca) i N (nrep L) (sum_u L) v); auto. intros T HT. split; [apply sum_u_wf; auto|]. split; [exact H1|].
    do 5 (split; [reflexivity|]). split; [apply sum_sampler; auto|apply dsum_dsampler; auto].
  - subst D'. assert (E0: tagged i N 0 1 = []).
    { unfold tagged, entries. clear. induction (seq 0 N) as [|x l IH]; auto. }
    assert (G0: gap3 N 0 1 = 0) by (unfold gap3; rewrite Nat.mul_0_r; cbn [INR]; ring). rewrite E0, G0.
    apply dlaw_route. intros c Gc. destruct (@rootprod_sample_ok V D S N Rn c Gc) as (c' & E & G & H1 & H2 & H3 & H4).
    exists c'. split; [exact E|]. split; [exact G|]. split; auto. split; auto. intros u cd Hc. destruct (drootprod_ok D S N Rn cd c Hc) as (oh & Eo & Ho).
    exists (dset_out cd oh). split; [exact Eo|]. destruct Hc as (_ & Hn & _ & Hr & Em & Et). split; [exact G|]. split; [exact Hn|]. split; [apply Ho; auto|].
    rewrite H1, H2, H3. split; [exact Hr|]. split; auto.
Qed.
Lemma dsample_layers_law Rn ls : forall j D S D' S' N cs v T, layers_ok Rn ls D S D' S' -> (0 < N)%nat ->
  layers_cached T Rn D S ls cs N v -> (forall n, (n < N)%nat -> vpos D S Rn (v n)) ->
  dlaw (sample_layers (combine ls cs)) (fun u => dsample_layers (streams u) (combine ls cs) j) (uniforms N (layer_choices ls j)) N Rn D S D' S' (gaps N (layer_choices ls j)).
Proof.
  induction ls as [|l ls IH]; intros j D S D' S' N cs v T Hok HN Hca Hv.
  - destruct Hok as [<- <-]. destruct cs; [|destruct Hca]. cbn [combine layer_choices]. apply dlaw_route. intros c Gc. exists c. cbn [sample_layers dsample_layers].
    repeat (split; [auto|]). intros u cd Hc. exists cd. auto.
  - destruct cs as [|ca cs]; [destruct Hca|]. cbn [layers_ok layers_cached combine layer_choices] in *.
    destruct Hok as [H1 H2]. destruct Hca as [(v' & Hc1 & Ev) Hc2]. rewrite gaps_app.
    assert (ND: NoDup (uniforms N (layer_choices ls (Datatypes.S j) ++ [layer_choice l (2 + j)]))).
    { apply nodup_uniforms. apply (layer_tags (l :: ls) j). }
    rewrite uniforms_app in ND |- *.
    apply (dlaw_ext (fun c => mbind (sample_layers (combine ls cs) c) (layer_sample l ca)) _
       (fun u c => x <- dsample_layers (streams u) (combine ls cs) (Datatypes.S j) c ;; dlayer_sample l ca (streams u (2 + j)%nat) x)); [reflexivity|reflexivity|].
    pose proof (layer_chain T _ _ _ _ H1) as C1.
    eapply (dlaw_comp _ _ _ (fun u => dlayer_sample l ca (streams u (2 + j)%nat))); [exact ND| |].
    + eapply IH; [exact H2|auto|exact Hc2|]. intros n Hn. eapply evals_pos; [exact C1|auto].
    + apply (dlayer_law Rn D S l N ca v'); auto.
      intros n Hn d s r Hd Hs Hr. rewrite <- Ev; auto. apply Hv; auto.
Qed.
End Steps.

Section Net.
Context {V : Type}.
Variable val : V -> R.
Variable E : einet V.
Hypothesis HE : einet_ok E.
Hypothesis Hmix : forall m, e_mixing E = Some m -> nrep m = 1%nat.
Let lf := leaf_of (e_leaf E).

Lemma dclass_law a : a_class a = CNone -> (0 < num_samples a)%nat -> a_tsum a <> 0 -> a_mpe a = false -> let N := num_samples a in
  let cs := if (1 <? e_K E)%nat then [(0%nat, 1%nat, e_K E)] else [] in
  law (class_step E a (init_ctx a)) (uniforms N cs) (fun nc => fst nc = N /\ cgood (snd nc) N 1 (e_K E) 1 /\ c_mpe (snd nc) = false /\ c_tsum (snd nc) = a_tsum a)
    (fun nc u => exists cd, dclass_step (streams u) E a (dinit_ctx a) = Ok (N, cd) /\ ohctx cd (snd nc) N 1 (e_K E) 1) (gaps N cs).
Proof.
  intros Hc HN HT Hm N. pose proof (dinit_ok (V := V) a) as G. fold N in G. unfold dclass_step, class_step. fold N. rewrite Hc.
  destruct (Nat.ltb_spec 1 (e_K E)) as [HK1|HK1]; cbv zeta.
  - destruct (eo_root E HE HK1) as (s & Es & Hok & S1 & S2 & S3 & S4). rewrite Es. cbn [attr lift mbind bind].
    pose proof (@dlayer_law V 1 1 (e_K E) (LSum s) N None vone 0%nat) as L.
    cbn [layer_ok layer_dout layer_sout layer_sample dlayer_sample layer_cached layer_choice] in L. unfold dims in L. rewrite S1, S2, S3 in L.
    assert (L': dlaw (@sum_sample V s None) (fun u => dsum_sample s None (streams u 0%nat)) (uniforms N [(0%nat, 1%nat, e_K E)]) N 1 1 (e_K E) 1 1 (gaps N [(0%nat, 1%nat, e_K E)])).
    { apply L; auto. left; auto. intros n Hn d k r _ _ _. unfold vone. lra. }
    clear L. set (I := uniforms N _) in *.
    eapply law_mono; [rewrite <- (app_nil_r I); apply (law_bind (sum_sample s None (init_ctx a)) (fun c' => Ret (N, c')) I []
      (fun c' => cgood c' N 1 (e_K E) 1 /\ c_mpe c' = false /\ c_tsum c' = a_tsum a)
      (fun c' u => exists cd', dsum_sample s None (streams u 0%nat) (dinit_ctx a) = Ok cd' /\ ohctx cd' c' N 1 (e_K E) 1)
      (fun nc => fst nc = N /\ cgood (snd nc) N 1 (e_K E) 1 /\ c_mpe (snd nc) = false /\ c_tsum (snd nc) = a_tsum a) (fun c' nc u => nc = (N, c')) (gaps N [(0%nat, 1%nat, e_K E)]) 0)| | |].
    + rewrite app_nil_r. unfold I, uniforms. cbn [flat_map]. rewrite app_nil_r. apply nodup_tagged.
    + eapply law_mono; [apply (L' (init_ctx a))|auto| |lra]; [apply G|exact Hm|exact HT|]. intros c' u _ _ H. apply H. exact G.
    + intros c' (A & B & C). apply law_ret; auto.
    + auto.
    + intros nc u _ _ (c' & _ & (cd & E1 & O1) & ->). exists cd. rewrite E1. cbn [bind]. auto.
    + lra.
  - pose proof (eo_K E HE). replace (e_K E) with 1%nat in * by lia. apply law_ret.
    + split; [reflexivity|]. split; [apply G|]. split; [exact Hm|reflexivity].
    + intros u. exists (dinit_ctx a). auto.
Qed.

Lemma dmixing_law N cs (v : nat -> nat -> nat -> R) c : c_tsum c <> 0 -> c_mpe c = false -> mcached E N (ca_mixing cs) v ->
  (forall n y r, (n < N)%nat -> (y < e_K E)%nat -> (r < e_R E)%nat -> 0 < v n y r) ->
  cgood c N 1 (e_K E) 1 -> let ch := if (1 <? e_R E)%nat then [(1%nat, 1%nat, e_R E)] else [] in
  law (mixing_step E cs N c) (uniforms N ch) (fun c' => cgood c' N 1 (e_K E) (e_R E) /\ c_mpe c' = false /\ c_tsum c' = c_tsum c)
    (fun c' u => forall cd, ohctx cd c N 1 (e_K E) 1 -> exists cd', dmixing_step (streams u) E cs N cd = Ok cd' /\ ohctx cd' c' N 1 (e_K E) (e_R E)) (gaps N ch).
Proof.
  intros HT Hm Hca Hv Gc. unfold dmixing_step, mixing_step. destruct (Nat.ltb_spec 1 (e_R E)) as [HR|HR]; cbv zeta.
  - destruct (eo_mix E HE HR) as (m & Emx & Hok & Hs1 & Hs2). rewrite Emx. cbn [attr lift mbind bind].
    destruct (Hca HR m Emx) as (v' & Hca' & Ev'). pose proof Hok as (HS & _ & _). pose proof Gc as Gc0. rewrite <- Hs2 in Gc0.
    destruct (@mixing_sampler V m N _ (ca_mixing cs) v' (c_tsum c) c Hok HT Hca' Gc0 eq_refl) as (lw & Ef & Hlw).
    pose proof Gc as (K1 & K2 & K3 & K4 & K5).
    assert (HS1: forall n d, (n < N)%nat -> (d < 1)%nat ->
       rsum (sin m) (fun r => mixpost m (c_tsum c) (v' n) (get (c_out c) [n; d]) r) = 1).
    { intros n d Hn' Hd. unfold mixpost, Rdiv. rewrite rsum_scal_r. apply Rinv_r. apply Rgt_not_eq. apply rsum_pos; auto.
      intros r Hr. rewrite Hs1 in Hr. apply Rmult_lt_0_compat; [apply wsoft_pos; auto|rewrite Ev'; auto]. }
    rewrite Ef, mbind_assoc. rewrite <- Hs1 in *. unfold uniforms, gaps. cbn [flat_map lsum tag fst snd]. rewrite app_nil_r, Rplus_0_r.
    set (P := tagged 1 N 1 (sin m)).
    assert (VW: forall t, shape t = [N; 1]%nat -> exists t' : tensor nat, view [N] t = Ok t' /\ shape t' = [N] /\ forall n, (n < N)%nat -> get t' [n] = get t [n; 0%nat]).
    { intros t St. unfold view. rewrite St. cbn [numel]. rewrite !Nat.mul_1_r, Nat.eqb_refl. eexists. split; [reflexivity|].
      split; [reflexivity|]. intros n Hn. cbn [get ravel numel unravel].
      rewrite !Nat.mul_1_r, Nat.add_0_r, Nat.div_1_r, Nat.mod_1_r. reflexivity. }
    eapply law_mono; [rewrite <- (app_nil_r P); apply (law_bind (choose c lw) _ P [] (fun t => shape t = [N; 1]%nat /\ forall n d, (n < N)%nat -> (d < 1)%nat -> (get t [n; d] < sin m)%nat)
      (fun t u => forall n d, (n < N)%nat -> (d < 1)%nat -> nargmax (sin m) (fun k => Fin (ln (mixpost m (c_tsum c) (v' n) (get (c_out c) [n; d]) k) + rgumbel (u [1%nat; n; d; k]))) = get t [n; d])
      (fun c' => cgood c' N 1 (e_K E) (sin m) /\ c_mpe c' = false /\ c_tsum c' = c_tsum c)
      (fun t c' u => exists t', c' = mkCtx (c_n c) (c_out c) t' (c_mpe c) (c_tsum c) /\ forall n, (n < N)%nat -> get t' [n] = get t [n; 0%nat])
      (gap3 N 1 (sin m)) 0)| | |].
    + rewrite app_nil_r. apply nodup_tagged.
    + apply law_choose; auto.
    + intros t [St Gt]. destruct (VW t St) as (t' & Ev & Sv & Gv). cbn [mbind set_out c_out c_n c_mpe c_tsum]. rewrite Ev. cbn [lift mbind].
      apply law_ret; [|intros u; exists t'; auto]. split; [|split; auto]. split; [exact K1|]. split; [exact K2|]. split; [exact K3|]. split; [exact Sv|].
      intros n Hn. cbn [c_rep]. rewrite Gv by auto. apply Gt; auto.
    + auto.
    + intros c' u (Gc' & _) Hu (t & [St Gt] & Ht & t' & -> & Gt') cd Hc.
      pose proof Hc as Hc0. rewrite <- Hs2 in Hc0.
      destruct (dmixing_dsampler m N (ca_mixing cs) v' (c_tsum c) (streams u 1%nat) cd c Hok (Hmix m Emx) HT Hca' Hc0 eq_refl)
        as (lwd & kt & oh & Ed & Hlwd & Sk & Hp & (Soh & Goh)). rewrite Hm in Hp.
      pose proof (picked lwd u kt N 1 (sin m) _ 1 t HS Hlwd Hp Hu Ht) as Ek. destruct Hc as (_ & D1 & D2 & D3 & D4 & D5).
      assert (VD: exists rep, view [N; sin m] oh = Ok rep /\ shape rep = [N; sin m] /\
        forall n r, (n < N)%nat -> (r < sin m)%nat -> get rep [n; r] = get oh [n; 0%nat; r]).
      { unfold view. rewrite Soh. cbn [numel]. rewrite !Nat.mul_1_l, !Nat.mul_1_r, Nat.eqb_refl. eexists. split; [reflexivity|].
        split; [reflexivity|]. intros n r Hn Hr. cbn [get].
        replace (ravel [N; sin m] [n; r]) with (ravel [N; 1; sin m]%nat [n; 0; r]%nat) by (cbn [ravel numel]; lia).
        rewrite unravel_ravel by (simpl; auto). reflexivity. }
      destruct VD as (rep & Erep & Srep & Grep). rewrite Ed. cbn [bind dset_out d_out]. rewrite Erep. cbn [bind].
      eexists. split; [reflexivity|]. split; [exact Gc'|]. split; [exact D1|split; [exact D2|split; [|split; auto]]].
      split; [exact Srep|]. intros n r Hn Hr. cbn [d_rep c_rep]. rewrite Grep by auto. rewrite Goh by auto. rewrite Ek by auto. rewrite Gt' by auto. reflexivity.
    + lra.
  - pose proof (eo_R E HE). apply law_ret.
    + replace (e_R E) with 1%nat by lia. auto.
    + intros u cd Hc. exists cd. split; [reflexivity|]. replace (e_R E) with 1%nat by lia. auto.
Qed.

Lemma dwalk_law a cs v T : a_class a = CNone -> (0 < num_samples a)%nat -> a_tsum a <> 0 -> a_mpe a = false ->
  let N := num_samples a in cs_ok E T N cs v -> (forall n, (n < N)%nat -> vpos (leaf_out E) (e_L E) (e_R E) (v n)) ->
  law (walk E a cs) (uniforms N (net_choices E)) (fun c => cgood c N (leaf_out E) (e_L E) (e_R E))
    (fun c u => exists cd, dwalk E (streams u) a cs = Ok cd /\ ohctx cd c N (leaf_out E) (e_L E) (e_R E)) (gaps N (net_choices E)).
Proof.
  intros Hcl HN HT Hm N [Hl Hmx] Hv. pose proof (dclass_law a Hcl HN HT Hm) as L1. cbv zeta in L1. fold N in L1, HN.
  pose proof (nodup_uniforms N _ (net_tags E)) as ND. unfold net_choices in ND |- *. rewrite !gaps_app. rewrite !uniforms_app in ND |- *.
  assert (Hvm: forall n y r, (n < N)%nat -> (y < e_K E)%nat -> (r < e_R E)%nat -> 0 < evals (RefEinetS.us E T) (v n) 0%nat y r).
  { intros n y r Hn Hy Hr. apply (evals_root_pos E HE T (v n) y r); auto. }
  unfold walk, dwalk. set (U0 := uniforms N (if (1 <? e_K E)%nat then _ else _)) in *. set (U1 := uniforms N (if (1 <? e_R E)%nat then _ else _)) in *. set (U2 := uniforms N (layer_choices _ _)) in *.
  set (g0 := gaps N (if (1 <? e_K E)%nat then _ else _)) in *. set (g1 := gaps N (if (1 <? e_R E)%nat then _ else _)) in *. set (g2 := gaps N (layer_choices _ _)) in *.
  eapply law_mono; [apply (law_bind (class_step E a (init_ctx a)) _ U0 (U1 ++ U2) _ _ (fun c => cgood c N (leaf_out E) (e_L E) (e_R E))
    (fun nc c u => forall cd, ohctx cd (snd nc) N 1 (e_K E) 1 -> exists cd', (x <- dmixing_step (streams u) E cs N cd ;; dsample_layers (streams u) (combine (e_layers E) (ca_layers cs)) 0 x) = Ok cd' /\ ohctx cd' c N (leaf_out E) (e_L E) (e_R E))
    g0 (g1 + g2) ND L1)| | |].
  - intros [n c1] (En & G1 & M1 & T1). cbn [fst snd] in *. subst n.
    pose proof (dmixing_law N cs _ c1 ltac:(rewrite T1; auto) M1 Hmx Hvm G1) as L2. cbv zeta in L2. fold U1 g1 in L2.
    eapply law_mono; [apply (law_bind (mixing_step E cs N c1) _ U1 U2 _ _ (fun c => cgood c N (leaf_out E) (e_L E) (e_R E))
      (fun c2 c u => forall cd, ohctx cd c2 N 1 (e_K E) (e_R E) -> exists cd', dsample_layers (streams u) (combine (e_layers E) (ca_layers cs)) 0 cd = Ok cd' /\ ohctx cd' c N (leaf_out E) (e_L E) (e_R E))
      g1 g2 (nodup_r _ _ ND) L2)| | |].
    + intros c2 (G2 & M2 & T2). pose proof (@dsample_layers_law V (e_R E) (e_layers E) 0 (leaf_out E) (e_L E) 1 (e_K E) N (ca_layers cs) v T (eo_layers E HE) HN Hl Hv) as L3.
      eapply law_mono; [apply (L3 c2 G2 M2); rewrite T2, T1; auto|intros c' (A & _); exact A|auto|unfold g2; lra].
    + auto.
    + intros c u _ _ (c2 & _ & H1 & H2) cd Hc. destruct (H1 cd Hc) as (cd1 & E1 & O1). destruct (H2 cd1 O1) as (cd2 & E2 & O2). exists cd2. rewrite E1. cbn [bind]. auto.
    + lra.
  - auto.
  - intros c u _ _ (nc & (En & _) & (cd & E1 & O1) & H2). destruct (H2 cd O1) as (cd' & E2 & O2). exists cd'. rewrite E1. cbn [bind]. auto.
  - lra.
Qed.

(** * Below the layers *)
(** Expectations over leaf draws stay within bounds. *)
Definition EL_bounded (EL : list nat -> (V -> R) -> R) : Prop := forall key f B, (forall v, Rabs (f v) <= B) -> Rabs (EL key f) <= B.
Variable EL : list nat -> (V -> R) -> R.
Hypothesis HEL : leaf_expectation EL.
Hypothesis HB : EL_bounded EL.
(** No categorical draws. *)
Fixpoint leaves_only {A} (m : M V A) : Prop :=
  match m with Ret _ | Fail _ => True | Cat _ _ => False | LeafD _ k => forall v, leaves_only (k v) end.
Lemma leaves_only_bind {A B} (m : M V A) (f : A -> M V B) : leaves_only m -> (forall a, leaves_only (f a)) -> leaves_only (mbind m f).
Proof. induction m as [a|e|w k IH|key k IH]; cbn [leaves_only mbind]; intros H Hf; auto. Qed.
Lemma leaves_only_lift {A} (r : res A) : leaves_only (@lift V A r).
Proof. destruct r; exact I. Qed.
Lemma leaves_only_draws {A} (ds : list (M V A)) : (forall d, In d ds -> leaves_only d) -> leaves_only (draws ds).
Proof.
  induction ds as [|d ds IH]; intros H; cbn [draws]; [exact I|]. apply leaves_only_bind; [apply H; left; auto|]. intros a. apply leaves_only_bind; [|intros; exact I]. apply IH. intros x Hx. apply H. right. auto.
Qed.
Lemma leaves_only_draw_fun {A} (dflt : A) s : forall d, (forall idx, leaves_only (d idx)) -> leaves_only (draw_fun dflt s d).
Proof.
  induction s as [|n s IH]; intros d H; cbn [draw_fun].
  - apply leaves_only_bind; [apply H|intros; exact I].
  - apply leaves_only_bind; [|intros; exact I]. apply leaves_only_draws. intros x Hx. apply in_map_iff in Hx as (i & <- & _). apply IH. auto.
Qed.
Lemma leaves_only_raw N mode : leaves_only (leaf_mode_or_draw lf N mode).
Proof.
  unfold leaf_mode_or_draw. destruct mode.
  - destruct (lf_mode lf); [|exact I]. apply leaves_only_bind; [apply leaves_only_lift|intros; exact I].
  - apply leaves_only_bind; [|intros; exact I]. unfold draw_tensor. apply leaves_only_bind; [|intros; exact I]. apply leaves_only_draw_fun. intros idx v. exact I.
Qed.
Lemma leaves_bounded {A} (m : M V A) g B : 0 <= B -> leaves_only m -> (forall a, Rabs (g a) <= B) -> Rabs (expect EL m g) <= B.
Proof.
  intros H0 Hm Hg. induction m as [a0|e|w k IH|key k IH]; cbn [leaves_only expect] in *; [apply Hg|rewrite Rabs_R0; auto|destruct Hm|]. apply HB. intros v. apply IH. apply Hm.
Qed.

Variables (a : sargs (V := V)).
Definition rest (c : sctx) : M V (tensor (option V)) := mbind (bottom E c (a_mpe a || a_mpel a)) (finish a).
Definition drest (cd : dctx) : M V (tensor num) :=
  t <~ dbottom val E cd (num_samples a) (a_mpe a || a_mpel a) ;;
  match a_ev a with None => Ret t | Some e => lift (dmerge_evidence val e (a_ms a) t) end.
Hypothesis Hctx : lf_ctx lf = true.
Hypothesis HN : (0 < num_samples a)%nat.
Hypothesis Hmd : a_mpe a || a_mpel a = true -> lf_mode lf <> None.
Hypothesis Hev : forall e, a_ev a = Some e -> input_ok E (num_samples a) e (a_ms a).

Lemma rest_same cd c (g : tensor num -> R) (g' : tensor (option V) -> R) : ohctx cd c (num_samples a) (leaf_out E) (e_L E) (e_R E) ->
  (forall t t', trel val t t' -> wshape (shape t') (num_samples a) (e_C E) (e_F E) -> g t = g' t') -> expect EL (drest cd) g = expect EL (rest c) g'.
Proof.
  intros Hc Hg. unfold drest, rest. set (N := num_samples a) in *. set (mode := a_mpe a || a_mpel a) in *. pose proof Hc as (Gc & _).
  destruct (dbottom_routes val E HE (fun _ _ => True) (fun _ _ => 0) cd c N Hctx HN Hc) as (k & Hk & Eb). rewrite Eb.
  destruct (bottom_routes E HE c N Hctx HN Gc) as (k' & Hk' & Eb'). rewrite Eb'. unfold leaf_prog. fold lf in Hk', Hk |- *.
  pose proof (eo_lC E HE) as EC. pose proof (eo_lF E HE) as EF. fold lf in EC, EF.
  rewrite !mbind_assoc, !expect_bind by auto. apply expect_ext_outcome; auto. intros s Hs.
  destruct (leaf_raw E (fun _ _ => True) N mode _ Hmd Hs) as (s' & Z & Ss & _). injection Z as <-. fold lf in Ss.
  destruct (Hk (tmap (fun v => Fin (val v)) s)) as (t & Et & St & Gt); [exact Ss|reflexivity|].
  destruct (Hk' s Ss) as (t' & Et' & St' & Gt'). rewrite Et, Et'. cbn [lift mbind]. rewrite EC, EF in *.
  assert (G: forall idx, inb [N; e_C E; e_F E] idx -> get t idx = Fin (val (get t' idx))) by (intros idx Hi; inbs; rewrite Gt, Gt' by auto; reflexivity).
  unfold finish. destruct (a_ev a) as [e|] eqn:Ee.
  - destruct (dmerge_sim val E N e (a_ms a) t t' (Hev e eq_refl) St St' G) as (o & o' & Eo & Eo' & To). rewrite Eo, Eo'. cbn [lift expect]. apply Hg; auto.
    destruct (merge_ok E N e (a_ms a) t' (Hev e eq_refl) St') as (o2 & Eo2 & S2 & _). rewrite Eo2 in Eo'. injection Eo' as ->. rewrite S2. apply (Hev e eq_refl).
  - cbn [expect]. apply Hg; [|right; left; exact St']. split; [unfold tmap; cbn [shape]; congruence|]. rewrite St. intros idx Hi. rewrite G by auto. reflexivity.
Qed.
Lemma rest_bounded c g B : 0 <= B -> cgood c (num_samples a) (leaf_out E) (e_L E) (e_R E) -> (forall t, Rabs (g t) <= B) -> Rabs (expect EL (rest c) g) <= B.
Proof.
  intros H0 Gc Hg. apply leaves_bounded; auto. unfold rest. destruct (bottom_routes E HE c (num_samples a) Hctx HN Gc) as (k' & Hk' & Eb'). rewrite Eb'.
  apply leaves_only_bind.
  - unfold leaf_prog. apply leaves_only_bind; [apply leaves_only_raw|intros; apply leaves_only_lift].
  - intros t. unfold finish. destruct (a_ev a); [apply leaves_only_lift|exact I].
Qed.

Theorem dsample_law (g : tensor num -> R) (g' : tensor (option V) -> R) B : check_args E a = Ok tt -> a_class a = CNone -> a_tsum a <> 0 -> a_mpe a = false ->
  0 <= B -> (forall t, Rabs (g' t) <= B) -> (forall t t', trel val t t' -> wshape (shape t') (num_samples a) (e_C E) (e_F E) -> g t = g' t') ->
  exists v, mean (uniforms (num_samples a) (net_choices E)) (fun u => expect EL (dsample val (streams u) E a) g) v /\
    Rabs (v - expect EL (sample E a) g') <= gaps (num_samples a) (net_choices E) * B.
Proof.
  intros Hch Hcl HT Hm H0 Hb Hg. set (N := num_samples a) in *.
  assert (Q: exists cs v, ev_caches E a = Ok cs /\ cs_ok E 1 N cs v /\ forall n, (n < N)%nat -> vpos (leaf_out E) (e_L E) (e_R E) (v n)).
  { destruct (a_ev a) as [e|] eqn:Ee.
    - destruct (forward_full_rep E HE N e (a_ms a) (Hev e eq_refl)) as (y & cs & Ey & _ & _ & v & Hv & Hc1 & Hc2). fold lf in Hv.
      exists cs, v. split; [unfold ev_caches; rewrite Ee, Ey; auto|]. split.
      + split; auto. intros HR m Em. eexists. split; [apply Hc2; auto|]. reflexivity.
      + intros n Hn d s q Hd Hs Hr. rewrite Hv by auto. apply (leafval_pos (fnet E)); auto. intros. apply lval_pos.
    - exists (no_caches E), vone. split; [unfold ev_caches; rewrite Ee; auto|]. split; [apply no_caches_ok; auto|].
      intros n Hn d s q _ _ _. unfold vone. lra. }
  destruct Q as (cs & v & Ec & Hcs & Pv). destruct (dwalk_law a cs v 1 Hcl HN HT Hm Hcs Pv) as (ks & C). fold N in C.
  assert (Hn: forall u nc, dclass_step (streams u) E a (dinit_ctx a) = Ok nc -> fst nc = num_samples a).
  { intros u nc Hnc. destruct (dclass_sim E HE (fun _ _ => True) (streams u) a Hcl HN HT) as (cd1 & c1 & E1 & _). rewrite E1 in Hnc. injection Hnc as <-. reflexivity. }
  set (h := fun c => expect EL (rest c) g'). exists (lsum (fun x => p_pr x * p_val x) (map (as_part h) ks)). split.
  - apply mean_parts; [apply nodup_uniforms, net_tags|eapply cases_partition; exact C|].
    intros u p Hu Hp Sp. apply in_map_iff in Hp as (x & <- & Hx). cbn [as_part p_set p_val] in *.
    destruct (cs_rel _ _ _ _ _ _ C x u Hx Hu Sp) as (cd & Ed & O). rewrite (dsample_core val E (streams u) a cs cd Hch Ec Ed (Hn u)). apply (rest_same cd (k_val _ x) g g' O Hg).
  - rewrite lsum_map. cbn [as_part p_pr p_val]. rewrite (sample_core E a cs Hch Ec). unfold core. rewrite mbind_assoc, expect_bind by auto. fold rest.
    change (fun c => expect EL (mbind (bottom E c (a_mpe a || a_mpel a)) (finish a)) g') with h.
    rewrite (cs_expect _ _ _ _ _ _ C EL HEL).
    replace (_ - _) with (lsum (fun x => (k_pr _ x - k_w _ x) * h (k_val _ x)) ks).
    + apply Rle_trans with (lsum (fun x => Rabs (k_pr _ x - k_w _ x) * B) ks).
      * assert (Tri: forall (f : kase sctx -> R) l, Rabs (lsum f l) <= lsum (fun x => Rabs (f x)) l).
        { intros f l. induction l as [|x l IH]; cbn [lsum]; [rewrite Rabs_R0; lra|]. eapply Rle_trans; [apply Rabs_triang|lra]. }
        eapply Rle_trans; [apply Tri|]. apply lsum_le. intros x Hx. rewrite Rabs_mult. apply Rmult_le_compat_l; [apply Rabs_pos|].
        apply rest_bounded; auto. apply (cs_inv _ _ _ _ _ _ C x Hx).
      * rewrite lsum_scal_r. apply Rmult_le_compat_r; auto. apply (cs_near _ _ _ _ _ _ C).
    + unfold Rminus. rewrite <- (Rmult_1_l (lsum (fun x => k_w _ x * _) ks)), Ropp_mult_distr_l, <- lsum_scal_l, <- lsum_plus. apply lsum_ext. intros; ring.
Qed.
End Net.
