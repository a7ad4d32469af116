(** C55, evidence with temperature_sums other than one. *)
From Coq Require Import List Arith Lia Bool ZArith Reals Lra Rpower FunctionalExtensionality.
Import ListNotations.
From Verif Require Import Base RSum Num Tensor Prob Layers Circuit Net RefFwd RefSample RefLaw Leaf RefLeaf RefLeafS TypeChecks Einet RefNet RefEinet RefEinetS Build RefBuild Spec RefSpec RefSpecS RefMore RefPack
  Family RefFamily Ex ExBad PropForward PropSample PropLeaf Temper RefTemper RefSteer PropTemper.
Local Open Scope R_scope.
Local Arguments Nat.div : simpl never.
Local Arguments Nat.modulo : simpl never.
Local Arguments Nat.sub : simpl never.
Local Arguments Nat.mul : simpl never.
Local Arguments Nat.add : simpl never.

(** Sampling given evidence [e] at temperature [T]. *)
Definition given_at (T : R) (e : tensor (option nat)) (ms : option (list nat)) : sargs (V := nat) := mkArgs None CNone (Some e) false false T ms.
(** The softmax of the logits of the class sampling root divided by [T]. *)
Definition cold_prior (o : oracle nat) (E : einet nat) (T : R) (y : nat) : R :=
  exp (toR (o_root o [0; y; 0; 0]%nat) / T) / rsum (e_K E) (fun j => exp (toR (o_root o [0; j; 0; 0]%nat) / T)).
(** The entries of a row that the evidence leaves open; the others are marginalized. *)
Definition open_row (C F : nat) (z : nat -> nat -> option nat) (x : nat -> nat -> nat) : tensor (option nat) :=
  mkT [1; C; F]%nat (fun idx => match idx with [_; c; f] => match z c f with Some _ => None | None => Some (x c f) end | _ => None end).

Lemma leafE_steer {V} T n cs lf' (E : einet V) : leafE (steer T n cs lf' E) = lf'.
Proof. unfold leafE, steer. cbn [e_leaf]. destruct (e_leaf E); reflexivity. Qed.
Lemma cold_weight g o (E : einet nat) T e ms n y : accepted g o E -> (1 < e_K E)%nat -> cweight E (given_at T e ms) n y = cold_prior o E T y.
Proof.
  intros HA HK. unfold cweight. destruct (Nat.ltb_spec 1 (e_K E)); [|lia]. cbn [given_at a_class a_tsum]. unfold wroot.
  destruct (root_logits g o E HA HK) as (s & -> & Hs). unfold wsoft, rsoftmax, cold_prior. rewrite Hs. f_equal. apply rsum_ext. intros j Hj. rewrite Hs. reflexivity.
Qed.
Section Steered.
Variables (g : config) (o : oracle nat) (E : einet nat) (B : nat) (T : R) (lf' : bleaf nat) (N : nat) (e : tensor (option nat)) (ms : option (list nat)) (xs : nat -> nat -> nat -> nat).
Hypotheses (HA : accepted g o E) (Hco : consistent g) (HT : T <> 0) (Hl' : leaf_ok lf') (Hs : same_draws (leafE E) lf') (HB' : discrete_leaf B lf')
  (Hctx : lf_ctx (leafE E) = true) (He : evidence E N e ms) (HN : (0 < N)%nat) (Hx : in_support E B N xs) (Hr : respects E N e ms xs).
Let HE := accepted_ok g o E HA.
Lemma EL_hot : leaf_expectation (EL_discrete B (leaf_draw lf')).
Proof.
  pose proof (EL_ok (cool 1 lf' E) (accepted_ok _ _ _ (accepted_cool g o E 1 lf' HA ltac:(lra) Hl' (sd_C _ _ Hs) (sd_F _ _ Hs) (sd_L _ _ Hs) (sd_R _ _ Hs))) B) as X.
  rewrite leafE_cool in X. apply X. auto.
Qed.
Lemma hot_point c f l r x : (c < e_C E)%nat -> (f < e_F E)%nat -> (l < e_L E)%nat -> (r < e_R E)%nat -> (x < B)%nat ->
  EL_discrete B (leaf_draw lf') [c; f; l; r] (fun v => eqv (Some v) x) = pdf lf' c f l r x.
Proof.
  pose proof (EL_point (cool 1 lf' E) (accepted_ok _ _ _ (accepted_cool g o E 1 lf' HA ltac:(lra) Hl' (sd_C _ _ Hs) (sd_F _ _ Hs) (sd_L _ _ Hs) (sd_R _ _ Hs))) B) as X.
  rewrite leafE_cool in X. apply X. auto.
Qed.
Lemma steered_ev y cs : forward_full E e ms = Ok (y, cs) ->
  (forall n, (n < N)%nat -> einet_ok (steer T n cs lf' E)) /\
  Pr B lf' (sample E (given_at T e ms)) (rows_are N (e_C E) (e_F E) xs) =
  rprod N (fun n => rsum (e_K E) (fun y => cweight E (given_at T e ms) n y *
     neteval (fnet (steer T n cs lf' E)) (fun c f l r => match observed e ms n c f with Some _ => 1 | None => pdf lf' c f l r (xs n c f) end) y)).
Proof.
  intros Ef. set (a := given_at T e ms). assert (EN: num_samples a = N) by (cbn; apply (batch_size E); apply He).
  destruct (leaf_sizes _ _ _ HA) as (SC & SF & SL & SR).
  destruct (steer_evidence_law E HE _ EL_hot a e y cs lf') as [OK L]; auto.
  - unfold check_args. cbn. destruct (e_K E =? 1)%nat; reflexivity.
  - rewrite EN. apply evidence_input; auto.
  - rewrite EN; auto.
  - apply (agree_groups g o); auto.
  - rewrite <- SC; apply Hs.
  - rewrite <- SF; apply Hs.
  - rewrite <- SL; apply Hs.
  - rewrite <- SR; apply Hs.
  - rewrite EN in OK, L. cbn [a given_at a_tsum] in OK. split; [exact OK|]. unfold Pr.
    rewrite (expect_ext _ EL_hot _ _ (fun o => rprod3 N (e_C E) (e_F E) (fun n c f => eqv (entry o n c f) (xs n c f)))) by (intros t; apply rows_are_rprod).
    rewrite (L (fun n c f v => eqv v (xs n c f))). apply rprod_ext. intros n Hn. apply rsum_ext. intros k Hk. f_equal.
    cbn [a given_at a_tsum a_ms]. apply neteval_ext; [apply fnet_wf; auto|auto|].
    intros c f l r Hc Hf Hl Hrr. rewrite observed_row. destruct (row e ms n c f) as [v|] eqn:Ev.
    + rewrite (Hr n c f v) by (auto; rewrite observed_row; auto). unfold eqv. rewrite Nat.eqb_refl. reflexivity.
    + apply hot_point; auto.
Qed.
Lemma steered_lik cs n y : einet_ok (steer T n cs lf' E) -> (n < N)%nat -> (y < e_K E)%nat ->
  neteval (fnet (steer T n cs lf' E)) (fun c f l r => match observed e ms n c f with Some _ => 1 | None => pdf lf' c f l r (xs n c f) end) y =
  lik (steer T n cs lf' E) (open_row (e_C E) (e_F E) (observed e ms n) (xs n)) None 0 y.
Proof.
  intros OK Hn Hy. rewrite (lik_eval _ OK 1); auto.
  - change (leaf_of (e_leaf (steer T n cs lf' E))) with (leafE (steer T n cs lf' E)). rewrite leafE_steer.
    apply neteval_ext; [apply fnet_wf; auto|auto|]. intros c f l r Hc Hf Hl Hrr. unfold lval, row, in_ms.
    unfold open_row. unfold entry. cbn [shape length Nat.eqb get ix]. destruct (observed e ms n c f); reflexivity.
  - split; [right; left; reflexivity|]. split; [|exact I].
    intros n' c f v Hn' Hc Hf. change (leaf_of (e_leaf (steer T n cs lf' E))) with (leafE (steer T n cs lf' E)). rewrite leafE_steer.
    unfold entry, open_row. cbn [shape length Nat.eqb get ix]. destruct (observed e ms n c f); [discriminate|]. intros H; inversion H; subst v.
    rewrite (dl_supp _ _ HB'). apply Nat.ltb_lt. apply Hx; auto.
Qed.
End Steered.

(** The completions of row [n] follow the likelihood of the network whose sum parameters are divided by T and increased by the
    log-likelihoods of the evidence that the forward pass of the undivided network stored at the children ([steer]), with the leaves
    that the draws follow.  Missing: configurations that are not [consistent]. *)
Theorem C55_evidence_at_partial : forall g o (E : einet nat) B T lf' N e ms xs,
  accepted g o E -> consistent g -> T <> 0 -> leaf_ok lf' -> same_draws (leafE E) lf' -> discrete_leaf B lf' -> lf_ctx (leafE E) = true ->
  evidence E N e ms -> (0 < N)%nat -> in_support E B N xs -> respects E N e ms xs ->
  exists y cs, forward_full E e ms = Ok (y, cs) /\
    Pr B lf' (sample E (given_at T e ms)) (rows_are N (e_C E) (e_F E) xs) =
    rprod N (fun n => if (1 <? e_K E)%nat
      then rsum (e_K E) (fun y => cold_prior o E T y * lik (steer T n cs lf' E) (open_row (e_C E) (e_F E) (observed e ms n) (xs n)) None 0 y)
      else lik (steer T n cs lf' E) (open_row (e_C E) (e_F E) (observed e ms n) (xs n)) None 0 0).
Proof.
  intros g o E B T lf' N e ms xs HA Hco HT Hl' Hs HB' Hctx He HN Hx Hr. pose proof (accepted_ok g o E HA) as HE.
  destruct (forward_full_rep E HE N e ms (evidence_input E N e ms He)) as (y & cs & Ey & _). exists y, cs. split; auto.
  destruct (steered_ev g o E B T lf' N e ms xs HA Hco HT Hl' Hs HB' Hctx He HN Hx Hr y cs Ey) as [OK ->].
  apply rprod_ext. intros n Hn. destruct (Nat.ltb_spec 1 (e_K E)) as [HK|HK].
  - apply rsum_ext. intros k Hk. rewrite (cold_weight g o) by auto. f_equal. apply (steered_lik E B T lf' N e ms xs HB' Hx); auto.
  - assert (K1: e_K E = 1%nat) by (pose proof (eo_K E HE); lia). rewrite K1, rsum_1. unfold cweight. rewrite K1. cbn [Nat.ltb Nat.leb].
    rewrite Rmult_1_l. apply (steered_lik E B T lf' N e ms xs HB' Hx); auto. lia.
Qed.
Print Assumptions C55_evidence_at_partial.

(** * One sum layer *)
Lemma steer_none T n l : steer_layer T n l None = cool_layer T l.
Proof.
  assert (S: forall L h, (forall i, h i = Fin 0) -> shifted T L h = cool_slay T L).
  { intros L h Hh. unfold shifted, cool_slay. f_equal. unfold tmap. f_equal. apply functional_extensionality. intros i. rewrite Hh.
    destruct (over T (get (logits L) i)); cbn [nadd]; auto. rewrite Rplus_0_r. reflexivity. }
  destruct l; cbn [steer_layer cool_layer]; rewrite ?S; auto.
Qed.
Lemma cool_eval T Rn D S l h d o r : T <> 0 -> layer_ok Rn D S l -> (d < layer_dout l)%nat -> (o < layer_sout S l)%nat -> (r < Rn)%nat ->
  evals (layer_us 1 S (cool_layer T l)) h d o r = evals (layer_us T S l) h d o r.
Proof.
  intros HT H Hd Ho Hr. rewrite <- (steer_none T 0).
  assert (P: vpos D S Rn (vone 0%nat)) by (intros ? ? ? ? ? ?; unfold vone; lra).
  rewrite (steer_eval Rn D S l 1 None vone T 0 h d o r H (layer_cached_none l 1)) by auto.
  pose proof (layer_chain T _ _ _ _ H) as C. rewrite (evals_one Rn _ _ _ _ _ (vone 0%nat) C) by (auto; intros ? ? ? ? ? ?; reflexivity).
  rewrite (evals_ext Rn _ _ _ _ _ (vmul h (vone 0%nat)) h C); auto; [field|]. intros ? ? ? ? ? ?. unfold vmul, vone. ring.
Qed.
Section Flat.
Variable E : einet nat.
Hypothesis HE : einet_ok E.
Variables (N : nat) (e : tensor (option nat)) (ms : option (list nat)) (y0 : tensor num) (cs : caches) (l : layer) (T : R).
Hypotheses (Hin : input_ok E N e ms) (Ef : forward_full E e ms = Ok (y0, cs)) (El : e_layers E = [l]) (HT : T <> 0).
Definition flat (t : R) (q : leaves) (y r : nat) : R := evals (layer_us t (e_L E) l) (leafval (fnet E) q) 0%nat y r.
Lemma flat_ok : layer_ok (e_R E) (leaf_out E) (e_L E) l /\ layer_dout l = 1%nat /\ layer_sout (e_L E) l = e_K E.
Proof. pose proof (eo_layers E HE) as H. rewrite El in H. cbn [layers_ok] in H. exact H. Qed.
Lemma flat_pos t q y r : (forall c f l r, 0 < q c f l r) -> (y < e_K E)%nat -> (r < e_R E)%nat -> 0 < flat t q y r.
Proof.
  intros Hq Hy Hr. destruct flat_ok as (H1 & H2 & H3). unfold flat.
  apply (evals_pos (e_R E) _ _ _ _ _ _ (layer_chain t _ _ _ _ H1)); rewrite ?H2, ?H3; auto.
  intros d s q' Hd Hs Hq'. apply (leafval_pos (fnet E)); auto.
Qed.
Lemma flat_eval lf' n h y : (n < N)%nat -> (y < e_K E)%nat ->
  let q := lval (pdf (leafE E)) (row e ms n) in
  neteval (fnet (steer T n cs lf' E)) h y =
  rsum (e_R E) (fun r => emix E T y r * flat 1 q y r / rsum (e_R E) (fun r => emix E T y r * flat 1 q y r) *
    (flat T (fun c f l r => h c f l r * q c f l r) y r / flat T q y r)).
Proof.
  intros Hn Hy q. destruct flat_ok as (H1 & H2 & H3).
  destruct (forward_full_rep E HE N e ms Hin) as (y' & cs' & Ey & _ & _ & v & Hv & Hc1 & Hc2).
  rewrite Ef in Ey. inversion Ey; subst y' cs'. fold (leafE E) in Hv.
  rewrite El in Hc1, Hc2. cbn [layers_cached] in Hc1. destruct (ca_layers cs) as [|ca [|]] eqn:Ec; [destruct Hc1| |destruct Hc1 as [_ []]].
  destruct Hc1 as [(v' & Hca & Ev) _]. cbn [layers_us] in Hc2. rewrite app_nil_r in Hc2.
  set (vm := fun n y r => evals (layer_us 1 (e_L E) l) (v n) 0%nat y r) in *.
  pose proof (layer_chain 1 _ _ _ _ H1) as C1. pose proof (layer_chain T _ _ _ _ H1) as CT.
  assert (Pv: forall n, (n < N)%nat -> vpos (leaf_out E) (e_L E) (e_R E) (v n)).
  { intros m Hm d s r Hd Hs Hr. rewrite Hv by auto. apply (leafval_pos (fnet E)); auto. intros. apply lval_pos. }
  assert (Pm: forall n y r, (n < N)%nat -> (y < e_K E)%nat -> (r < e_R E)%nat -> 0 < vm n y r).
  { intros m k r Hm Hk Hr. unfold vm. apply (evals_pos (e_R E) _ _ _ _ _ _ C1); rewrite ?H2, ?H3; auto. }
  assert (Fv: forall t r, (r < e_R E)%nat -> evals (layer_us t (e_L E) l) (v n) 0%nat y r = flat t q y r).
  { intros t r Hr. unfold flat. apply (evals_ext (e_R E) _ _ _ _ _ _ _ (layer_chain t _ _ _ _ H1)); rewrite ?H2, ?H3; auto. apply Hv; auto. }
  unfold neteval. cbn [fnet net_with nR nmix nls]. change (e_R (steer T n cs lf' E)) with (e_R E). apply rsum_ext. intros r Hr. f_equal.
  - rewrite (steer_mix E HE T n cs lf' N vm y r); auto.
    + unfold vm. rewrite Fv by auto. f_equal. apply rsum_ext. intros k Hk. rewrite Fv; auto.
    + intros HR m Em. exists vm. split; [apply Hc2; auto|]. reflexivity.
  - change (e_layers (steer T n cs lf' E)) with (steer_layers T n (e_layers E) (ca_layers cs)). rewrite El, Ec. cbn [steer_layers layers_us]. rewrite app_nil_r.
    change (e_L (steer T n cs lf' E)) with (e_L E).
    rewrite (steer_eval (e_R E) (leaf_out E) (e_L E) l N ca v' T n) by (auto; rewrite ?H2, ?H3; auto; intros d s r' Hd Hs Hr'; rewrite <- Ev by auto; apply Pv; auto).
    rewrite <- (Fv T r Hr). f_equal.
    + unfold flat. apply (evals_ext (e_R E) _ _ _ _ _ _ _ CT); rewrite ?H2, ?H3; auto.
      intros d s r' Hd Hs Hr'. unfold vmul. rewrite <- Ev, Hv by auto. unfold leafval. cbn [fnet net_with nF nC ngroup].
      change (e_F (steer T n cs lf' E)) with (e_F E). change (e_C (steer T n cs lf' E)) with (e_C E). rewrite <- rprod_mult.
      apply rprod_ext. intros f Hf. assert (G: fgrp (steer T n cs lf' E) r' f = fgrp E r' f) by (unfold fgrp, steer; cbn [e_leaf e_perm e_F]; destruct (e_leaf E); reflexivity).
      rewrite G. destruct (Nat.eqb (fgrp E r' f) d); [|ring]. rewrite <- rprod_mult. reflexivity.
    + apply (evals_ext (e_R E) _ _ _ _ _ _ _ CT); rewrite ?H2, ?H3; auto. intros d s r' Hd Hs Hr'. symmetry. apply Ev; auto.
Qed.
Lemma flat_cool lf' q y : (y < e_K E)%nat -> neteval (fnet (cool T lf' E)) q y = rsum (e_R E) (fun r => emix (cool T lf' E) 1 y r * flat T q y r).
Proof.
  intros Hy. destruct flat_ok as (H1 & H2 & H3). unfold neteval. cbn [fnet net_with nR nmix nls]. change (e_R (cool T lf' E)) with (e_R E).
  apply rsum_ext. intros r Hr. f_equal. change (e_layers (cool T lf' E)) with (map (cool_layer T) (e_layers E)). rewrite El. cbn [map layers_us]. rewrite app_nil_r.
  change (e_L (cool T lf' E)) with (e_L E). rewrite (cool_eval T (e_R E) (leaf_out E)) by (auto; rewrite ?H2, ?H3; auto).
  unfold flat, leafval. cbn [fnet net_with nF nC ngroup].
  assert (G: fgrp (cool T lf' E) = fgrp E) by (unfold fgrp, cool; cbn [e_leaf e_perm e_F]; destruct (e_leaf E); reflexivity).
  fold (fgrp (cool T lf' E)). rewrite G. reflexivity.
Qed.
End Flat.

(** With one sum layer and one repetition this is the conditional distribution of the network with divided parameters.
    Missing: deeper networks, for which it is false ([C55_evidence_at_refuted]). *)
Theorem C55_evidence_flat_partial : forall g o (E : einet nat) B T N e ms xs,
  accepted g o E -> consistent g -> T <> 0 -> discrete_leaf B (leafE E) -> lf_ctx (leafE E) = true ->
  evidence E N e ms -> (0 < N)%nat -> in_support E B N xs -> respects E N e ms xs ->
  e_R E = 1%nat -> length (e_layers E) = 1%nat ->
  exists E', accepted g (cooler o T (leafE E)) E' /\ leafE E' = leafE E /\
    Pr B (leafE E) (sample E (given_at T e ms)) (rows_are N (e_C E) (e_F E) xs) =
    rprod N (fun n => if (1 <? e_K E)%nat
      then rsum (e_K E) (fun y => cold_prior o E T y * (lik E' (one_row (e_C E) (e_F E) (xs n)) None 0 y / lik E' e ms n y))
      else lik E' (one_row (e_C E) (e_F E) (xs n)) None 0 0 / lik E' e ms n 0).
Proof.
  intros g o E B T N e ms xs HA Hco HT HB Hctx He HN Hx Hr HR Hlen. pose proof (accepted_ok g o E HA) as HE.
  set (E' := cool T (leafE E) E). pose proof (eo_leaf E HE) as HL. fold (leafE E) in HL.
  assert (A': accepted g (cooler o T (leafE E)) E') by (apply accepted_cool; auto).
  pose proof (accepted_ok _ _ _ A') as HE'. assert (L': leafE E' = leafE E) by apply leafE_cool.
  exists E'. split; auto. split; auto.
  destruct (e_layers E) as [|l [|]] eqn:El; try discriminate. clear Hlen.
  pose proof (evidence_input E N e ms He) as Hin.
  destruct (forward_full_rep E HE N e ms Hin) as (y0 & cs & Ef & _).
  assert (Hs: same_draws (leafE E) (leafE E)) by (split; reflexivity).
  destruct (steered_ev g o E B T (leafE E) N e ms xs HA Hco HT HL Hs HB Hctx He HN Hx Hr y0 cs Ef) as [OK ->].
  assert (Hin': input_ok E' N e ms).
  { destruct Hin as (I1 & I2 & I3). split; auto. split; auto. fold (leafE E'). rewrite L'. auto. }
  assert (Q: forall n y, (n < N)%nat -> (y < e_K E)%nat ->
    neteval (fnet (steer T n cs (leafE E) E)) (fun c f l r => match observed e ms n c f with Some _ => 1 | None => pdf (leafE E) c f l r (xs n c f) end) y =
    lik E' (one_row (e_C E) (e_F E) (xs n)) None 0 y / lik E' e ms n y).
  { intros n y Hn Hy. rewrite (flat_eval E HE N e ms y0 cs l T Hin Ef El HT) by auto. rewrite HR, rsum_1.
    change (e_C E) with (e_C E'). change (e_F E) with (e_F E'). rewrite (lik_one_row E' HE' B) by (try (rewrite L'); auto; intros; apply Hx; auto).
    rewrite (lik_eval E' HE' N e ms) by auto. fold (leafE E'). rewrite L'. unfold E'. rewrite !(flat_cool E HE l T El HT (leafE E)) by auto. rewrite HR, !rsum_1.
    assert (M1: forall E0 : einet nat, e_R E0 = 1%nat -> forall t y r, emix E0 t y r = 1) by (intros E0 H0 t k r; unfold emix; rewrite H0; destruct (e_mixing E0); reflexivity).
    rewrite !M1 by exact HR.
    assert (P: forall t, 0 < flat E l t (lval (pdf (leafE E)) (row e ms n)) y 0) by (intros t; apply flat_pos; auto; [intros; apply lval_pos|rewrite HR; lia]).
    pose proof (P 1) as P1. pose proof (P T) as PT. set (u := flat E l T _ y 0). assert (Eu: u = flat E l T (lval (pdf (leafE E)) (fun c f => Some (xs n c f))) y 0).
    { unfold u, flat. destruct (flat_ok E HE l El) as (H1 & H2 & H3).
      apply (evals_ext (e_R E) _ _ _ _ _ _ _ (layer_chain T _ _ _ _ H1)); rewrite ?H2, ?H3, ?HR; auto.
      intros d s r Hd Hss Hr0. unfold leafval. apply rprod_ext. intros f Hf. destruct (Nat.eqb _ d); [|reflexivity]. apply rprod_ext. intros c Hc.
      unfold lval. rewrite observed_row. destruct (row e ms n c f) as [v|] eqn:Ev; [|ring].
      rewrite (Hr n c f v); auto; [ring|]. rewrite observed_row; auto. }
    rewrite Eu. field. lra. }
  apply rprod_ext. intros n Hn. destruct (Nat.ltb_spec 1 (e_K E)) as [HK|HK].
  - apply rsum_ext. intros y Hy. rewrite (cold_weight g o) by auto. f_equal. apply Q; auto.
  - assert (K1: e_K E = 1%nat) by (pose proof (eo_K E HE); lia). rewrite K1, rsum_1. unfold cweight. rewrite K1. cbn [Nat.ltb Nat.leb].
    rewrite Rmult_1_l. apply Q; auto. lia.
Qed.
Print Assumptions C55_evidence_flat_partial.

(** * Two repetitions *)
Definition warm_g : config := plain 2 1 1 2 2 1 0 0 TEinsum STopDown.
(** The first feature of the first repetition has two different components, the second feature tells the repetitions apart. *)
Definition warm_p (key : list nat) : R :=
  match key with [_; f; l; r] => if (f =? 0)%nat then (if (r =? 0)%nat then (if (l =? 0)%nat then 1/4 else 3/4) else 1/2) else (if (r =? 0)%nat then 3/4 else 1/4) | _ => 1/2 end.
Definition warm_logits (idx : list nat) : num := match idx with [_; k; _; r] => if ((r =? 0) && (k =? 1))%nat then Fin (ln 3) else Fin 0 | _ => Fin 0 end.
Definition warm_o : oracle nat :=
  mkOracle (fun _ => warm_logits) zero_logits zero_logits zero_logits [2]%nat (fun _ => [0; 1]%nat) (fun F C L R => Ok (coin warm_p F C L R)).
Definition warm_L : slay := mkL 1 2 1 2 (mkT [1; 2; 1; 2]%nat warm_logits).
Definition warm : einet nat :=
  mkE 2 1 2 2 1 (LFact (coin warm_p 2 1 2 2) 1 (make_scopes 2 1 2 [2]%nat (fun _ => [0; 1]%nat))) None
    [LSum warm_L] (Some (mkL 1 2 1 1 (mkT [1; 1; 2]%nat zero_logits))) None.
Lemma warm_p_ok key : 0 < warm_p key < 1.
Proof. unfold warm_p. destruct key as [|? [|f [|l [|r [|]]]]]; try lra. destruct (f =? 0)%nat, (r =? 0)%nat, (l =? 0)%nat; lra. Qed.
Lemma warm_accepted : accepted warm_g warm_o warm.
Proof.
  split; [reflexivity| |].
  - split; try (intros; reflexivity).
    + intros i idx. cbn [warm_o o_logits]. unfold warm_logits. destruct idx as [|? [|k [|? [|r [|]]]]]; try reflexivity. destruct ((r =? 0) && (k =? 1))%nat; reflexivity.
    + intros r Hr. unfold perm_len, groups_of. cbn [warm_g plain g_struct g_R g_F g_depth]. rewrite !nval_nat. cbn [Nat.eqb]. cbn [warm_o o_perm]. apply Permutation.Permutation_refl.
    + eexists. split; [reflexivity|]. split; [apply coin_ok|]. repeat split.
  - unfold warm_g. rewrite plain_build by (try lia; try lra; try congruence; simpl; lia).
    unfold build_top_down. cbn [plain g_depth g_F g_C g_L g_R g_K g_S g_layer g_struct g_drop]. rewrite !nval_nat.
    cbn [seq mapM bind zval Z.of_nat Z.eqb]. rewrite new_layer_ok; [|lia..|apply zero_drop_ok]. cbn [bind app rev].
    cbn [layer_nf nf]. unfold build_input, build_mixing, build_root. cbn [g_F g_C g_L g_R g_K g_drop plain]. rewrite !nval_nat.
    cbn [Nat.ltb Nat.leb Nat.eqb]. rewrite new_layer_ok; [|lia..|apply zero_drop_ok]. reflexivity.
Qed.
Lemma half_batch : batch warm 1 half_row.
Proof.
  split; [right; left; reflexivity|]. intros n c f v Hn Hc Hf. unfold entry, half_row. cbn. destruct (f =? 0)%nat; [|discriminate].
  intros H. inversion H; subst. reflexivity.
Qed.
(** Weights of the sum layer at temperatures 1 and 1/2. *)
Lemma warm_w (t : bool) r k : (r < 2)%nat -> (k < 2)%nat -> linsum_w warm_L (if t then 1 else 1 / 2) 0 0 r k =
  if (r =? 0)%nat then (if t then if (k =? 0)%nat then 1/4 else 3/4 else if (k =? 0)%nat then 1/10 else 9/10) else 1/2.
Proof.
  intros Hr Hk. unfold linsum_w, wsoft, rsoftmax. cbn [warm_L sin logits get warm_logits].
  assert (E1: exp (ln 3 / 1) = 3) by (replace (ln 3 / 1) with (ln 3) by field; apply exp_ln; lra).
  assert (E2: exp (ln 3 / (1 / 2)) = 9) by (replace (ln 3 / (1 / 2)) with (ln 3 + ln 3) by field; rewrite exp_plus, exp_ln; lra).
  assert (E3: forall s, exp (0 / s) = 1) by (intros s; unfold Rdiv; rewrite Rmult_0_l; apply exp_0).
  rewrite !rsum_S, rsum_0. destruct r as [|[|]]; [| |lia]; destruct k as [|[|]]; try lia; destruct t; cbn [Nat.eqb andb toR]; rewrite ?E1, ?E2, ?E3; field.
Qed.
Lemma warm_flat (t : bool) q r : (r < 2)%nat -> flat warm (LSum warm_L) (if t then 1 else 1 / 2) q 0 r =
  rsum 2 (fun k => linsum_w warm_L (if t then 1 else 1 / 2) 0 0 r k * (q 0%nat 0%nat k r * q 0%nat 1%nat k r)).
Proof.
  intros Hr. unfold flat. cbn [layer_us evals fold_left]. unfold ueval. cbn [sum_u uK uW sin warm_L]. apply rsum_ext. intros k Hk. f_equal.
  unfold uprod. cbn [sum_u ukids usel lprod]. unfold leafval. cbn [fnet net_with nF nC ngroup warm e_F e_C].
  assert (G: forall f, (f < 2)%nat -> fgrp warm r f = 0%nat).
  { intros f Hf. destruct r as [|[|]]; [| |lia]; destruct f as [|[|]]; try lia; reflexivity. }
  rewrite !rprod_S, !rprod_0. fold warm. rewrite !G by lia. cbn [Nat.eqb]. ring.
Qed.
Lemma warm_consistent : consistent warm_g.
Proof. unfold consistent. cbn [warm_g plain g_struct g_R g_F g_depth]. rewrite !nval_nat. cbn. lia. Qed.
Lemma warm_mix t y r : (t = 1 \/ t = 1 / 2) -> (r < 2)%nat -> emix warm t y r = 1 / 2 /\ emix (cool (1/2) (leafE warm) warm) 1 y r = 1 / 2.
Proof.
  intros Ht Hr. assert (E3: forall s, exp (0 / s) = 1) by (intros s; unfold Rdiv; rewrite Rmult_0_l; apply exp_0).
  unfold emix, mixing_w, wsoft, rsoftmax. cbn [warm e_mixing e_R Nat.ltb Nat.leb sin logits get cool option_map cool_slay tmap zero_logits].
  unfold zero_logits, over. cbn [ndiv]. destruct (Req_EM_T (1/2) 0); [lra|]. cbn [toR]. rewrite !rsum_S, !rsum_0.
  replace (0 / (1 / 2) / 1) with (0 / 1) by field. rewrite !E3. split; field.
Qed.
(** Given a zero in the first feature, the second one is zero with probability 19/36; the network with divided parameters has 13/24. *)
Lemma warm_given : Pr 2 (leafE warm) (sample warm (given_at (1 / 2) half_row None)) (rows_are 1 1 2 (fun _ => zeros)) = 19 / 36.
Proof.
  pose proof (accepted_ok _ _ _ warm_accepted) as HE.
  assert (HB: discrete_leaf 2 (leafE warm)) by (apply coin_discrete, warm_p_ok).
  assert (Hin: input_ok warm 1 half_row None) by (apply batch_input, half_batch).
  destruct (forward_full_rep warm HE 1 half_row None Hin) as (y0 & cs & Ef & _).
  destruct (steered_ev warm_g warm_o warm 2 (1/2) (leafE warm) 1 half_row None (fun _ => zeros) warm_accepted warm_consistent ltac:(lra)) with (y := y0) (cs := cs) as [_ P]; auto.
  - apply coin_ok.
  - split; reflexivity.
  - split; [apply half_batch|exact I].
  - intros n c f _ _ _. unfold zeros. lia.
  - intros n c f v _ _ _. unfold observed, half_row, entry. cbn. destruct (f =? 0)%nat; [|discriminate]. intros H; inversion H. reflexivity.
  - change (e_C warm) with 1%nat in P. change (e_F warm) with 2%nat in P. change (e_K warm) with 1%nat in P. rewrite P. clear P.
    rewrite rprod_S, rprod_0, rsum_1. unfold cweight. change (Nat.ltb 1 (e_K warm)) with false. cbn iota.
    rewrite (flat_eval warm HE 1 half_row None y0 cs (LSum warm_L) (1/2) Hin Ef eq_refl ltac:(lra)) by (cbn; lia).
    change (e_R warm) with 2%nat. pose proof (warm_flat true) as F1. pose proof (warm_flat false) as F2. cbn iota in F1, F2.
    pose proof (warm_w true) as W1. pose proof (warm_w false) as W2. cbn iota in W1, W2.
    pose proof (fun r H => proj1 (warm_mix (1/2) 0 r (or_intror eq_refl) H)) as M.
    rewrite !rsum_S, !rsum_0. rewrite !M by lia. rewrite !F1, !F2 by lia.
    rewrite !rsum_S, !rsum_0, !W1, !W2 by lia. cbn [Nat.eqb]. unfold lval, observed, row, half_row, entry, zeros. cbn.
    fold (leafE warm). change (leafE warm) with (coin warm_p 2 1 2 2). rewrite !coin_pdf by apply warm_p_ok. unfold warm_p. cbn [Nat.eqb]. field.
Qed.
Lemma warm_cond : let E' := cool (1/2) (leafE warm) warm in lik E' (one_row 1 2 zeros) None 0 0 / lik E' half_row None 0 0 = 13 / 24.
Proof.
  intros E'. assert (A': accepted warm_g (cooler warm_o (1/2) (leafE warm)) E') by (apply accepted_cool; auto; [apply warm_accepted|lra|apply coin_ok]).
  pose proof (accepted_ok _ _ _ A') as HE'. pose proof (accepted_ok _ _ _ warm_accepted) as HE.
  assert (L': leafE E' = leafE warm) by apply leafE_cool. assert (HB: discrete_leaf 2 (leafE warm)) by (apply coin_discrete, warm_p_ok).
  change 1%nat with (e_C E') at 1. change 2%nat with (e_F E') at 1.
  rewrite (lik_one_row E' HE' 2) by (try (rewrite L'; auto); try (intros; unfold zeros); cbn; lia).
  rewrite (lik_eval E' HE' 1) by (try (apply batch_input; destruct half_batch as [H1 H2]; split; auto; rewrite L'; auto); cbn; lia).
  fold (leafE E'). rewrite L'. unfold E'. rewrite !(flat_cool warm HE (LSum warm_L) (1/2) eq_refl ltac:(lra) (leafE warm)) by (cbn; lia).
  change (e_R warm) with 2%nat. pose proof (warm_flat false) as F2. cbn iota in F2. pose proof (warm_w false) as W2. cbn iota in W2.
  pose proof (fun r H => proj2 (warm_mix (1/2) 0 r (or_intror eq_refl) H)) as M.
  rewrite !rsum_S, !rsum_0. rewrite !M by lia. rewrite !F2 by lia.
  rewrite !rsum_S, !rsum_0, !W2 by lia. cbn [Nat.eqb]. unfold lval, row, half_row, entry, zeros. cbn.
  fold (leafE warm). change (leafE warm) with (coin warm_p 2 1 2 2). rewrite !coin_pdf by apply warm_p_ok. unfold warm_p. cbn [Nat.eqb]. field.
Qed.
Theorem C55_evidence_at_refuted : ~ (forall g o (E : einet nat) B T N e ms xs,
  accepted g o E -> consistent g -> 0 < T -> discrete_leaf B (leafE E) -> lf_ctx (leafE E) = true -> e_K E = 1%nat ->
  evidence E N e ms -> (0 < N)%nat -> in_support E B N xs -> respects E N e ms xs ->
  exists E', accepted g (cooler o T (leafE E)) E' /\
    Pr B (leafE E) (sample E (given_at T e ms)) (rows_are N (e_C E) (e_F E) xs) =
    rprod N (fun n => lik E' (one_row (e_C E) (e_F E) (xs n)) None 0 0 / lik E' e ms n 0)).
Proof.
  intros H. destruct (H warm_g warm_o warm 2%nat (1/2) 1%nat half_row None (fun _ => zeros)) as (E' & A' & P); auto.
  - apply warm_accepted.
  - apply warm_consistent.
  - lra.
  - apply coin_discrete, warm_p_ok.
  - split; [apply half_batch|exact I].
  - intros n c f _ _ _. unfold zeros. lia.
  - intros n c f v _ _ _. unfold observed, half_row, entry. cbn. destruct (f =? 0)%nat; [|discriminate]. intros E0; inversion E0. reflexivity.
  - assert (X: E' = cool (1/2) (leafE warm) warm).
    { destruct A' as [_ _ B']. rewrite build_cool in B'. destruct warm_accepted as [_ _ B0]. rewrite B0 in B'. inversion B'. reflexivity. }
    subst E'. change (e_C warm) with 1%nat in P. change (e_F warm) with 2%nat in P. rewrite warm_given in P. rewrite rprod_S, rprod_0, warm_cond in P. lra.
Qed.
Print Assumptions C55_evidence_at_refuted.

(** * Concrete cases *)
(** Two rows with evidence, five features, two repetitions, temperature 2; the leaves are tempered too. *)
Example C55_evidence_at_ex : exists g o (E : einet nat) y cs, accepted g o E /\ e_F E = 5%nat /\ e_R E = 2%nat /\ leafE E = coin third 5 1 2 2 /\
  forward_full E (two_rows 1 5 ex_ev) None = Ok (y, cs) /\
  Pr 2 (coin fifth 5 1 2 2) (sample E (given_at 2 (two_rows 1 5 ex_ev) None)) (rows_are 2 1 5 alternating) =
  rprod 2 (fun n => lik (steer 2 n cs (coin fifth 5 1 2 2) E) (open_row 1 5 (observed (two_rows 1 5 ex_ev) None n) (alternating n)) None 0 0).
Proof.
  destruct ex_bu as (E0 & A0 & HF & HC & HR & HK & _ & _ & HL). set (lf := coin third 5 1 2 2). set (E := cool 1 lf E0).
  destruct (leaf_sizes _ _ _ A0) as (SC & SF & SL & SR).
  assert (A: accepted ex_bu_g (cooler ex_bu_o 1 lf) E).
  { apply accepted_cool; auto; try lra; [apply coin_ok| | | |]; rewrite ?SC, ?SF, ?SL, ?SR, ?HF, ?HC, ?HL, ?HR; reflexivity. }
  assert (Lf: leafE E = lf) by apply leafE_cool.
  assert (D: discrete_leaf 2 (leafE E)) by (rewrite Lf; apply coin_discrete; apply third_ok).
  destruct (C55_evidence_at_partial _ _ E 2 2 (coin fifth 5 1 2 2) 2 (two_rows 1 5 ex_ev) None alternating A bu_consistent) as (y & cs & Ef & P); try lra; try lia.
  - apply coin_ok.
  - rewrite Lf. apply coin_draws.
  - apply coin_discrete. unfold fifth. intros; lra.
  - rewrite Lf. reflexivity.
  - split; [|exact I]. apply two_rows_batch; auto; [intros u; apply (dl_supp 2 _ D)|exact ex_ev_lt].
  - intros n c f _ _ _. apply alternating_lt.
  - intros n c f v Hn Hc Hf Hv. apply ex_ev_some. exact Hv.
  - exists ex_bu_g, (cooler ex_bu_o 1 lf), E, y, cs. split; [exact A|]. split; [exact HF|]. split; [exact HR|]. split; [exact Lf|]. split; [exact Ef|].
    change (e_C E) with (e_C E0) in P. change (e_F E) with (e_F E0) in P. change (e_K E) with (e_K E0) in P. rewrite HF, HC, HK in P. cbn [Nat.ltb Nat.leb] in P. exact P.
Qed.
(** One sum layer over products, two classes with prior 1/4 and 3/4, temperature 1/2. *)
Example C55_evidence_flat_ex : exists E', accepted bad3_g (cooler bad3_o (1 / 2) (leafE bad3)) E' /\
  Pr 2 (leafE bad3) (sample bad3 (given_at (1 / 2) half_row None)) (rows_are 1 1 2 (fun _ => zeros)) =
  rprod 1 (fun n => rsum 2 (fun y => (if (y =? 0)%nat then 1/10 else 9/10) * (lik E' (one_row 1 2 zeros) None 0 y / lik E' half_row None n y))).
Proof.
  destruct (C55_evidence_flat_partial bad3_g bad3_o bad3 2 (1/2) 1 half_row None (fun _ => zeros) bad3_accepted) as (E' & A' & _ & P); auto; try lra.
  - unfold consistent. cbn [bad3_g plain g_struct g_R g_F g_depth]. rewrite !nval_nat. cbn. right. reflexivity.
  - apply coin_discrete, bad3_p_ok.
  - split; [apply half_row_batch|exact I].
  - intros n c f _ _ _. unfold zeros. lia.
  - intros n c f v _ _ _. unfold observed, half_row, entry. cbn. destruct (f =? 0)%nat; [|discriminate]. intros H; inversion H. reflexivity.
  - exists E'. split; auto. change (e_C bad3) with 1%nat in P. change (e_F bad3) with 2%nat in P. change (e_K bad3) with 2%nat in P. rewrite P. clear P.
    apply rprod_ext. intros n Hn. cbn [Nat.ltb Nat.leb]. apply rsum_ext. intros y Hy. f_equal.
    unfold cold_prior. change (e_K bad3) with 2%nat. cbn [bad3_o o_root bad3_root].
    assert (E2: exp (ln 3 / (1 / 2)) = 9) by (replace (ln 3 / (1 / 2)) with (ln 3 + ln 3) by field; rewrite exp_plus, exp_ln; lra).
    assert (E3: forall s, exp (0 / s) = 1) by (intros s; unfold Rdiv; rewrite Rmult_0_l; apply exp_0).
    rewrite !rsum_S, rsum_0. destruct y as [|[|]]; [| |lia]; cbn [Nat.eqb toR]; rewrite ?E2, ?E3; field.
Qed.
