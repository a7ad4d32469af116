(** C94: mpe with ConditionalBinomial leaves. *)
From Coq Require Import List Arith Lia Bool Reals Lra.
Import ListNotations.
From Verif Require Import Base RSum Num Tensor Prob Layers Circuit Net RefFwd RefSample RefLaw Leaf Perm RefLeaf RefLeafS Einet RefNet RefEinet RefEinetS RefMpe Build RefBuild Spec RefSpec RefSpecS RefPack Family RefFamily RefDensity RefDensityS Ex CondBinom PropCondBinom PropCondSample CondMpe.
Local Open Scope R_scope.
Local Arguments Nat.div : simpl never. Local Arguments Nat.modulo : simpl never. Local Arguments Nat.sub : simpl never.
Local Arguments Nat.mul : simpl never. Local Arguments Nat.add : simpl never. Local Arguments clamp : simpl never. Local Arguments bdim : simpl never.

(** * The mode of a Binomial *)
Lemma bpmf_steps n t v : (v < n)%nat -> exists B, 0 < B /\ bpmf n t v = B * (INR (S v) * (1 - sigm t)) /\ bpmf n t (S v) = B * (INR (n - v) * sigm t).
Proof.
  intros Hv. pose proof (sigm_range t) as P. assert (Pv: 0 < INR (S v)) by (apply lt_0_INR; lia).
  exists (Binomial.C n v / INR (S v) * sigm t ^ v * (1 - sigm t) ^ (n - S v)). split; [|split].
  - assert (PC: 0 < Binomial.C n v) by (unfold Binomial.C; apply Rdiv_lt_0_compat; [apply fact_pos|apply Rmult_lt_0_compat; apply fact_pos]).
    apply Rmult_lt_0_compat; [apply Rmult_lt_0_compat; [apply Rdiv_lt_0_compat; auto|apply pow_lt; lra]|apply pow_lt; lra].
  - unfold bpmf. replace (n - v)%nat with (S (n - S v)) by lia. rewrite <- tech_pow_Rmult. field. lra.
  - unfold bpmf. rewrite pascal_step3 by auto. rewrite <- tech_pow_Rmult. field. lra.
Qed.
Lemma bpmf_mode n t : (binomial_mode n (sigm t) <= n)%nat /\ forall v, (v <= n)%nat -> bpmf n t v <= bpmf n t (binomial_mode n (sigm t)).
Proof.
  pose proof (sigm_range t) as P. pose proof (pos_INR n) as Pn.
  assert (Hx: 0 <= sigm t * (INR n + 1)) by (apply Rmult_le_pos; lra).
  destruct (floor_nat _ Hx) as [A B]. fold (binomial_mode n (sigm t)) in A, B. set (m := binomial_mode n (sigm t)) in *.
  assert (Hm: (m <= n)%nat).
  { assert (H: INR m < INR n + 1). { apply Rle_lt_trans with (1 := A). rewrite <- (Rmult_1_l (INR n + 1)) at 2. apply Rmult_lt_compat_r; lra. }
    rewrite <- S_INR in H. apply INR_lt in H. lia. }
  split; auto. apply unimodal; auto; intros v Hv.
  - destruct (bpmf_steps n t v ltac:(lia)) as (b & Hb & -> & ->). apply Rmult_le_compat_l; [lra|]. rewrite minus_INR, S_INR by lia.
    assert (Hs: INR v + 1 <= INR m) by (rewrite <- S_INR; apply le_INR; lia). lra.
  - destruct (bpmf_steps n t v ltac:(lia)) as (b & Hb & -> & ->). apply Rmult_le_compat_l; [lra|]. rewrite minus_INR, S_INR by lia.
    assert (Hs: INR m <= INR v) by (apply le_INR; lia). lra.
Qed.

(** * The leaf *)
Section Net.
Variable E : einet nat.
Hypothesis HE : einet_ok E.
Variable s : cbin.
Variable h : nat.
Hypothesis Hs : cb_ok s h.
Hypothesis Hf : cb_fits E s.

Lemma cb_mode_ok N lg (lo : nat -> nat -> nat -> nat -> nat -> R) : shape lg = [N; cb_C s; cb_F s; cb_L s; cb_R s] ->
  (forall n c f l r, (n < N)%nat -> (c < cb_C s)%nat -> (f < cb_F s)%nat -> (l < cb_L s)%nat -> (r < cb_R s)%nat -> get lg [n; c; f; l; r] = Fin (lo n c f l r)) ->
  exists t, cb_mode s N lg = Ok t /\ shape t = [N; cb_C s; cb_F s; cb_L s; cb_R s] /\
    forall n c f l r, (n < N)%nat -> (c < cb_C s)%nat -> (f < cb_F s)%nat -> (l < cb_L s)%nat -> (r < cb_R s)%nat ->
      get t [n; c; f; l; r] = binomial_mode (cb_total s) (sigm (lo n c f l r)).
Proof.
  intros Sl Gl. unfold cb_mode. unfold size. cbn [tmap shape]. rewrite Sl. cbn [nth].
  destruct (Nat.eqb_spec N 1) as [->|_].
  - unfold repeat_t. cbn [tmap shape]. rewrite Sl. cbn [length Nat.eqb map2]. rewrite !Nat.mul_1_l. eexists. split; [reflexivity|]. split; [reflexivity|].
    intros n c f l r Hn Hc Hf' Hl Hr. cbn [get tmap map2]. rewrite !Nat.mod_small by auto. rewrite Gl by auto. reflexivity.
  - eexists. split; [reflexivity|]. split; [exact Sl|]. intros n c f l r Hn Hc Hf' Hl Hr. cbn [get tmap]. rewrite Gl by auto. reflexivity.
Qed.

Lemma condm_bottom_ok e xc lg c N : (forall l, e_leaf E <> LBase l) -> cb_cond s e = Ok xc -> cb_logits s xc = Ok lg ->
  forallb (fun idx => negb (isnan (get lg idx))) (all_idx (shape lg)) = true -> (0 < N)%nat -> cgood c N (leaf_out E) (e_L E) (e_R E) ->
  exists k, routes5 s k c N (sgrp E) /\ bind (unpermute E c) (condm_leaf (e_leaf E) s (Some e)) = bind (cb_mode s N lg) k.
Proof.
  intros Hb Ec El Hn HN Hc. destruct Hf as [fC fF fL fR].
  pose proof (eo_ll E HE) as H. unfold leaf_layer_ok, leaf_out, unpermute, sgrp, condm_leaf in *.
  pose proof (eo_lC E HE) as EC. pose proof (eo_lF E HE) as EF.
  pose proof (eo_lL E HE) as EL'. pose proof (eo_lR E HE) as ER. set (lf := leaf_of (e_leaf E)) in *. pose proof (proj1 Hc) as En.
  assert (ELF: leaf_of (e_leaf E) = lf) by reflexivity. clearbody lf.
  assert (Hc': cgood c N (match e_leaf E with LFact _ Fo _ | LSimple _ Fo _ _ => Fo | LBase _ => e_F E end) (cb_L s) (cb_R s)) by (rewrite fL, fR; destruct (e_leaf E); exact Hc).
  destruct (e_leaf E) as [lf' Fo sc|lf' Fo pl pinv|lf']; cbn [leaf_of] in ELF; subst lf'; [| |exfalso; eapply Hb; reflexivity];
    destruct (e_perm E) as [[p q]|]; try tauto; cbn [bind].
  - rewrite <- EF, <- ER in H. rewrite <- EL', <- ER in Hc.
    exists (fun t => bind (cb_select s (c_rep c) t) (fact_index lf Fo sc (c_n c) (c_out c) (c_rep c))). split.
    + intros t St. destruct (cb_select_ok s c N Fo t Hc' St) as (y & -> & Sy & Gy). cbn [bind].
      destruct (fact_index_ok lf Fo sc _ c N y HN H Hc) as (z & -> & Sz & Gz); [rewrite Sy; congruence|].
      exists z. split; auto. split; [rewrite Sz; congruence|]. intros n ch f Hn' Hch Hf'. rewrite Gz by (auto; lia).
      destruct Hc' as (_ & _ & Go & _ & Gr). destruct H as (_ & Gl & _). apply Gy; auto. apply Go; auto. apply Gl; [|lia]. rewrite ER, <- fR. auto.
    + unfold cbm_sample. cbn [bind]. rewrite Ec. cbn [bind]. rewrite El. cbn [bind]. rewrite Hn. cbn [guard bind]. rewrite En.
      destruct (cb_mode s N lg) as [t|]; [|reflexivity]. cbn [bind]. destruct (cb_select s (c_rep c) t); reflexivity.
  - destruct H as (HR & HFo & Hp & ->). rewrite <- EF in Hp. rewrite <- EL' in Hc.
    exists (fun t => bind (cb_select s (c_rep c) t) (simple_index lf Fo (vec (argsort pl)) (c_n c) (c_out c))). split.
    + intros t St. destruct (cb_select_ok s c N Fo t Hc' St) as (y & -> & Sy & Gy). cbn [bind].
      destruct (simple_index_ok lf Fo pl c N _ y HFo Hp Hc) as (z & -> & Sz & Gz); [rewrite Sy; congruence|].
      exists z. split; auto. split; [rewrite Sz; congruence|]. intros n ch f Hn' Hch Hf'. rewrite Gz by (auto; lia). rewrite EF.
      destruct Hc' as (_ & _ & Go & _ & Gr). apply Gy; auto. apply Go; auto. unfold simple_sgrp. apply Nat.mod_upper_bound. lia.
    + unfold cbm_sample. cbn [bind]. rewrite Ec. cbn [bind]. rewrite El. cbn [bind]. rewrite Hn. cbn [guard bind]. rewrite En.
      destruct (cb_mode s N lg) as [t|]; [|reflexivity]. cbn [bind]. destruct (cb_select s (c_rep c) t); reflexivity.
Qed.

Lemma condm_law e N d ms : (forall l, e_leaf E <> LBase l) -> shape e = [N; e_C E; e_F E] -> filled E s N e d -> scope E ms -> (0 < N)%nat ->
  exists o xv y, cond_mpe E s (Some e) ms = Ret o /\ cond_image s h N (entry e) xv /\ cb_fn s xv = Ok y /\ shape o = shape e /\
    forall n c f, (n < N)%nat -> (c < e_C E)%nat -> (f < e_F E)%nat ->
      if marg ms f then exists l r, (l < e_L E)%nat /\ (r < e_R E)%nat /\ entry o n c f = Some (binomial_mode (cb_total s) (sigm (logit s h N y n c f l r)))
      else entry o n c f = Some (d n c f).
Proof.
  intros Hb Se Hfl Hm HN. set (a := mkArgs (V := nat) None CNone (Some e) true false 1 ms).
  assert (Hch: check_args E a = Ok tt) by (unfold check_args; cbn; destruct (e_K E =? 1)%nat; reflexivity).
  assert (Hcl: class_ok E a) by exact I.
  assert (En: num_samples a = N) by (unfold num_samples; cbn [a a_ev]; unfold size; rewrite Se; reflexivity).
  destruct (cond_full_ok E HE s h Hs Hf N e ms d Hfl Hm) as (xv & y & out & cs & Im & Ey & Ef & Hcs).
  assert (Ec: cond_caches E s a = Ok cs) by (unfold cond_caches; cbn [a a_ev a_ms]; rewrite Ef; reflexivity).
  destruct Hf as [fC fF fL fR].
  destruct (cb_logits_ok s h N e Hs ltac:(rewrite fC, fF; exact Se)) as (xc & xv' & y' & lg & Exc & Im' & Ey' & Elg & Sl & Gl).
  assert (Im2: cond_image s h N (entry e) xv').
  { destruct Im' as [I1 I2]. split; auto. intros n c i j Hn Hc Hi Hj. rewrite I2 by auto. unfold entry. rewrite Se. reflexivity. }
  assert (Nan: forallb (fun idx => negb (isnan (get lg idx))) (all_idx (shape lg)) = true).
  { apply forallb_forall. intros idx Hi. apply in_all_idx in Hi. rewrite Sl in Hi. inbs. rewrite Gl by auto. reflexivity. }
  set (v := fun n => leafval (fnet E) (cq s h N y d ms n)) in *.
  assert (Pv: forall n, (n < N)%nat -> vpos (leaf_out E) (e_L E) (e_R E) (v n)).
  { intros n Hn dd k r Hd Hk Hr. apply (leafval_pos (fnet E)); auto. intros. apply cq_pos. }
  destruct (walk_out E HE a cs v 1 Hcl) as [O W]; rewrite ?En; auto; [cbn [a a_tsum]; lra|]. rewrite En in O.
  destruct (W eq_refl) as (c & Wc). destruct (O (fun _ _ => True) (Ok c)) as (c' & Z & Gc); [rewrite Wc; constructor|]. inversion Z; subst c'.
  destruct (condm_bottom_ok e xc lg c N Hb Exc Elg Nan HN Gc) as (k & Hk & Eb).
  destruct (cb_mode_ok N lg (logit s h N y') Sl Gl) as (t & Et & St & Gt). rewrite Et in Eb. cbn [bind] in Eb.
  destruct (Hk t St) as (z & Ez & Sz & Gz). rewrite Ez in Eb. rewrite fC, fF in Sz, Gz.
  destruct (merge_filled E s N e ms d z Hfl Hm Sz) as (o & Eo & So & Go).
  exists o, xv', y'. split; [|split; [exact Im2|split; [exact Ey'|split; [exact So|]]]].
  - transitivity (mbind (walk E a cs) (fun c => mbind (lift (bind (unpermute E c) (condm_leaf (e_leaf E) s (Some e)))) (fun t => lift (merge_evidence e ms t)))).
    + unfold cond_mpe, walk. fold a. rewrite Hch. cbn [lift mbind]. rewrite Ec. cbn [lift mbind].
      repeat first [rewrite !mbind_assoc | apply mbind_ext; intros ?]. match goal with |- context [unpermute E ?c2] => destruct (unpermute E c2) end; reflexivity.
    + rewrite Wc. cbn [mbind]. rewrite Eb. cbn [lift mbind]. rewrite Eo. reflexivity.
  - intros n c0 f Hn Hc0 Hf'. rewrite Go by auto. destruct (marg ms f); [|reflexivity].
    destruct Gc as (_ & _ & G3 & _ & G5). eexists _, _. split; [|split; [|rewrite Gz by auto; rewrite Gt; [reflexivity|auto|lia|lia| |]]].
    + apply G3; auto. apply sgrp_lt; auto.
    + auto.
    + rewrite fL. apply G3; auto. apply sgrp_lt; auto.
    + rewrite fR. auto.
Qed.
End Net.

(** * The claim *)
(** mpe(evidence, marginalized_scopes) draws nothing, keeps the other features and fills every feature of the scopes with a value of
    largest probability under some component of its conditioned Binomials. *)
Theorem C94_modes : forall g o E s h N e d sc, accepted g o E -> g_struct g = STopDown -> cb_ok s h -> cb_fits E s ->
  shape e = [N; e_C E; e_F E] -> filled E s N e d -> (forall f, In f sc -> (f < e_F E)%nat) -> (0 < N)%nat ->
  exists t xv y, cond_mpe E s (Some e) (Some sc) = Ret t /\ cond_image s h N (entry e) xv /\ cb_fn s xv = Ok y /\ shape t = shape e /\
    forall n c f, (n < N)%nat -> (c < e_C E)%nat -> (f < e_F E)%nat ->
      exists v, entry t n c f = Some v /\ (v <= cb_total s)%nat /\ (~ In f sc -> v = d n c f) /\
        (In f sc -> exists l r, (l < e_L E)%nat /\ (r < e_R E)%nat /\
           forall u, (u <= cb_total s)%nat -> bpmf (cb_total s) (logit s h N y n c f l r) u <= bpmf (cb_total s) (logit s h N y n c f l r) v).
Proof.
  intros g o E s h N e d sc A Top Hs Hf Se Hd Hsc HN.
  destruct (condm_law E (accepted_ok _ _ E A) s h Hs Hf e N d (Some sc) (top_down_leaf _ _ E A Top) Se Hd Hsc HN) as (t & xv & y & Et & Im & Ey & St & Gt).
  exists t, xv, y. split; auto. split; auto. split; auto. split; auto. intros n c f Hn Hc Hf'. specialize (Gt n c f Hn Hc Hf').
  cbn [marg] in Gt. destruct (existsb (Nat.eqb f) sc) eqn:Ex.
  - destruct Gt as (l & r & Hl & Hr & Gt). destruct (bpmf_mode (cb_total s) (logit s h N y n c f l r)) as [M1 M2].
    eexists. split; [exact Gt|]. split; [exact M1|]. split; [intros Hi; exfalso; apply Hi; apply existsb_eqb_In; auto|]. intros _. exists l, r. auto.
  - eexists. split; [exact Gt|]. split; [apply Hd; auto|]. split; [auto|]. intros Hi. apply existsb_eqb_In in Hi. congruence.
Qed.
Print Assumptions C94_modes.

(** * Where it does not work, as for sample *)
Theorem C94_bottom_up_refuted : forall g o E s ev ms supp r, accepted g o E -> g_struct g = SBottomUp -> outcome supp (cond_mpe E s ev ms) r -> exists e, r = Err e.
Proof.
  intros g o E s ev ms supp r A Hb Ho. destruct (bottom_up_leaf g o E A Hb) as (l & El). pose proof (eo_ll E (accepted_ok _ _ E A)) as Hl. unfold leaf_layer_ok in Hl.
  assert (Step: forall X Y (m : M nat X) (q : X -> M nat Y), (forall x r, outcome supp (q x) r -> exists e, r = Err e) -> forall r, outcome supp (mbind m q) r -> exists e, r = Err e).
  { intros X Y m q Hq r' H. apply outcome_bind in H as [(e & _ & ->)|(x & _ & H)]; eauto. }
  assert (Lf: forall X (m : res X) r, outcome supp (lift m) r -> r = m).
  { intros X m r' H. destruct m; inversion H; auto. }
  unfold cond_mpe in Ho. cbv zeta in Ho. revert r Ho. do 5 (apply Step; intros ?). rename x3 into c.
  intros r Ho. apply outcome_bind in Ho as [(e & _ & ->)|(c' & Hc & Ho)]; [eauto|]. apply Lf in Hc.
  assert (R2: exists n F, shape (c_out c') = [n; F]).
  { rewrite El in Hl. unfold unpermute in Hc. destruct (e_perm E) as [[p q]|]; [|contradiction].
    unfold index_dim in Hc. destruct (shape (c_rep c)) as [|n [|]]; try discriminate.
    destruct (forallb _ _) in Hc; [|discriminate]. cbn [bind] in Hc. unfold gather in Hc.
    destruct (_ && _) in Hc; [|discriminate]. cbn [bind] in Hc. inversion Hc. exists n, (e_F E). reflexivity. }
  destruct R2 as (n & F & R2). apply outcome_bind in Ho as [(e & _ & ->)|(t' & Ht' & _)]; [eauto|]. exfalso. apply Lf in Ht'. symmetry in Ht'. rewrite El in Ht'.
  cbn [condm_leaf] in Ht'. unfold cbm_sample in Ht'.
  apply bind_ok in Ht' as (e & _ & Ht'). apply bind_ok in Ht' as (xc & _ & Ht'). apply bind_ok in Ht' as (lg & _ & Ht'). apply bind_ok in Ht' as (u & _ & Ht').
  apply bind_ok in Ht' as (m & _ & Ht'). apply bind_ok in Ht' as (t & Ht & Ht').
  assert (R4: exists n1 n2 n3 n4, shape t = [n1; n2; n3; n4]).
  { unfold cb_select in Ht. destruct (view_infer [] [1; 1; 1; 1]%nat (c_rep c')) as [r1|] eqn:E1; [|discriminate]. cbn [bind] in Ht.
    assert (S4: size r1 4 = 1%nat).
    { unfold view_infer in E1. destruct (_ =? 0)%nat in E1; [discriminate|]. unfold view in E1. destruct (_ =? _)%nat in E1; [|discriminate]. inversion E1. reflexivity. }
    rewrite S4 in Ht. unfold expand in Ht. destruct (expandable _ _) in Ht; [|discriminate]. cbn [bind] in Ht.
    unfold gather in Ht. destruct (_ && _) in Ht; [|discriminate]. cbn [bind shape] in Ht. inversion Ht. unfold squeeze, size. cbn. eauto. }
  destruct R4 as (n1 & n2 & n3 & n4 & R4). cbn [cb_parents] in Ht'. unfold gather in Ht'. cbn [unsqueeze shape] in Ht'. rewrite R2, R4 in Ht'. cbn [insert_nth gather_fits combine length Nat.eqb] in Ht'.
  rewrite ?andb_false_r in Ht'. cbn [andb bind] in Ht'. discriminate.
Qed.
Theorem C94_free_refuted : forall E s ms supp r, outcome supp (cond_mpe E s None ms) r -> exists e, r = Err e.
Proof.
  intros E s ms supp r Ho.
  assert (Step: forall X Y (m : M nat X) (q : X -> M nat Y), (forall x r, outcome supp (q x) r -> exists e, r = Err e) -> forall r, outcome supp (mbind m q) r -> exists e, r = Err e).
  { intros X Y m q Hq r' H. apply outcome_bind in H as [(e & _ & ->)|(x & _ & H)]; eauto. }
  unfold cond_mpe in Ho. cbv zeta in Ho. revert r Ho. do 6 (apply Step; intros ?). intros r Ho.
  destruct (e_leaf E); cbn [condm_leaf cbm_sample bind lift mbind] in Ho; inversion Ho; eauto.
Qed.
Theorem C94_missing_refuted : forall g o E s N x ms n c f supp r, accepted g o E -> cb_fits E s -> wshape (shape x) N (e_C E) (e_F E) ->
  (n < N)%nat -> (c < e_C E)%nat -> (f < e_F E)%nat -> entry x n c f = None -> outcome supp (cond_mpe E s (Some x) ms) r -> exists e, r = Err e.
Proof.
  intros g o E s N x ms n c f supp r A Hf Hw Hn Hc Hf' Hx Ho. destruct (C92_missing_refuted g o E s N x ms n c f A Hf Hw Hn Hc Hf' Hx) as (e & Ee).
  unfold cond_forward in Ee. destruct (cond_full E s x ms) as [[y cs]|e'] eqn:E1; [discriminate|].
  unfold cond_mpe, cond_caches in Ho. cbn [a_ev a_ms] in Ho. rewrite E1 in Ho. destruct (check_args E _) as [[]|]; cbn [lift mbind bind] in Ho; inversion Ho; eauto.
Qed.
Print Assumptions C94_bottom_up_refuted.
Print Assumptions C94_free_refuted.
Print Assumptions C94_missing_refuted.

(** * The network of C93_ex: the first feature is one with probability sigmoid(3) if the second is one *)
Example C94_ex : exists E t, accepted ex1_g ex1_o E /\ cond_mpe E (selfcond 3 1 (e_L E) (e_R E)) (Some (point 1 2 [0; 1]%nat)) (Some [0%nat]) = Ret t /\
  entry t 0 0 0 = Some 1%nat /\ entry t 0 0 1 = Some 1%nat.
Proof.
  destruct ex1 as (E & A & EF & EC & EK). set (s := selfcond 3 1 (e_L E) (e_R E)).
  assert (Hs: cb_ok s 1) by (apply selfcond_ok; lia). assert (Hf: cb_fits E s) by (split; cbn; auto).
  assert (Hd: filled E s 1 (point 1 2 [0; 1]%nat) (fun _ _ f => nth f [0; 1]%nat 0%nat)).
  { split; [rewrite EF, EC; right; left; reflexivity|]. rewrite EF, EC. intros n c f Hn Hc Hf'. assert (c = 0)%nat by lia. subst c. split; [reflexivity|].
    cbn [cb_total s selfcond]. destruct f as [|[|]]; cbn; lia. }
  destruct (C94_modes ex1_g ex1_o E s 1 1 (point 1 2 [0; 1]%nat) (fun _ _ f => nth f [0; 1]%nat 0%nat) [0%nat] A eq_refl Hs Hf) as (t & xv & y & Et & [Sv Gv] & Ey & St & Gt); auto.
  { rewrite EC, EF. reflexivity. }
  { intros f [<-|[]]. lia. }
  exists E, t. split; [exact A|]. split; [exact Et|]. split.
  - destruct (Gt 0 0 0)%nat as (v & Ev & Hv & _ & Mv); try lia. destruct Mv as (l & r & Hl & Hr & Mv); [left; reflexivity|].
    assert (Lo: logit s 1 1 y 0 0 0 l r = 3).
    { change (cb_fn s xv) with (cb_fn (selfcond 3 1 (e_L E) (e_R E)) xv) in Ey. cbn [selfcond cb_fn] in Ey. inversion Ey. clear Ey.
      unfold logit. change (0 <? 1 * 1)%nat with true. cbn [s selfcond cb_base get toR shape Nat.eqb cb_L cb_R cb_C].
      unfold size. rewrite Sv. cbn [nth].
      change (1 * 1)%nat with 1%nat. rewrite unravel_ravel by (cbn; repeat split; auto; lia). cbn [nth].
      rewrite Gv by (cbn; lia). cbn [cb_idxs s selfcond]. change (nth (0 * 1 + 0) [1] 0)%nat with 1%nat. cbn. change (0 * 2 + 1)%nat with 1%nat. cbn. ring. }
    rewrite Lo in Mv. rewrite Ev. change (cb_total s) with 1%nat in Hv, Mv. f_equal. destruct v as [|[|]]; [|reflexivity|lia]. exfalso. specialize (Mv 1%nat ltac:(lia)).
    pose proof (bpmf_sum 1 3) as S1. rewrite !rsum_S, rsum_0 in S1.
    assert (B: bpmf 1 3 1 = sigm 3) by (unfold bpmf, Binomial.C; change (1 - 0)%nat with 1%nat; change (1 - 1)%nat with 0%nat; change (fact 1) with 1%nat; change (fact 0) with 1%nat; cbn [pow INR]; field).
    enough (1 / 2 < sigm 3) by lra. rewrite <- sigm_0. unfold sigm. apply Rinv_lt_contravar.
    + apply Rmult_lt_0_compat; apply Rplus_lt_0_compat; try lra; apply exp_pos.
    + apply Rplus_lt_compat_l. apply exp_increasing. lra.
  - destruct (Gt 0 0 1)%nat as (v & Ev & Hv & Kv & _); try lia. rewrite Ev, Kv; [reflexivity|]. intros [H|[]]. lia.
Qed.
Example C94_ex_bottom_up : exists E, accepted ex_bu_g ex_bu_o E /\ g_struct ex_bu_g = SBottomUp.
Proof. destruct ex_bu as (E & A & _). exists E. auto. Qed.
