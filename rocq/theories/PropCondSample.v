(** C93: completing evidence with ConditionalBinomial leaves. *)
From Coq Require Import List Arith Lia Bool Reals Lra.
Import ListNotations.
From Verif Require Import Base RSum Num Tensor Prob Layers Circuit Net RefFwd RefSample RefLaw Leaf Perm RefLeaf RefLeafS Einet RefNet RefEinet RefEinetS Build RefBuild Spec RefSpec RefSpecS RefPack Family RefFamily RefDensity RefDensityS Ex CondBinom PropCondBinom.
Local Open Scope R_scope.
Local Arguments Nat.div : simpl never. Local Arguments Nat.modulo : simpl never. Local Arguments Nat.sub : simpl never.
Local Arguments Nat.mul : simpl never. Local Arguments Nat.add : simpl never. Local Arguments clamp : simpl never. Local Arguments bdim : simpl never.

(** * Drawing the components and selecting *)
Definition routes5 (s : cbin) (k : tensor nat -> res (tensor nat)) (c : sctx) (N : nat) (grp : nat -> nat -> nat) : Prop :=
  forall t, shape t = [N; cb_C s; cb_F s; cb_L s; cb_R s] ->
  exists y, k t = Ok y /\ shape y = [N; cb_C s; cb_F s] /\
  forall n ch f, (n < N)%nat -> (ch < cb_C s)%nat -> (f < cb_F s)%nat ->
    get y [n; ch; f] = get t [n; ch; f; get (c_out c) [n; grp (get (c_rep c) [n]) f]; get (c_rep c) [n]].

Section Draw.
Variable s : cbin.
Lemma view_infer_4 {A} N (t : tensor A) : shape t = [N] ->
  exists t', view_infer [] [1; 1; 1; 1]%nat t = Ok t' /\ shape t' = [N; 1; 1; 1; 1]%nat /\
    forall n, (n < N)%nat -> get t' [n; 0; 0; 0; 0]%nat = get t [n].
Proof.
  intros E. unfold view_infer. cbn [numel]. change (1 * (1 * (1 * (1 * (1 * 1)))) =? 0)%nat with false. cbn iota.
  rewrite E. cbn [numel app].
  replace (N * 1 / (1 * (1 * (1 * (1 * (1 * 1))))))%nat with N by (apply Nat.div_unique with (r := 0%nat); [lia|ring]).
  unfold view. rewrite E. cbn [numel].
  destruct (Nat.eqb_spec (N * (1 * (1 * (1 * (1 * 1))))) (N * 1)) as [_|Z]; [|lia].
  eexists. split; [reflexivity|]. split; [reflexivity|]. intros n Hn. cbn [get].
  replace (ravel [N; 1; 1; 1; 1]%nat [n; 0; 0; 0; 0]%nat) with (ravel [N] [n]).
  - rewrite unravel_ravel by (simpl; auto). reflexivity.
  - cbn [ravel numel]. lia.
Qed.
Lemma cb_select_ok c N D t : cgood c N D (cb_L s) (cb_R s) -> shape t = [N; cb_C s; cb_F s; cb_L s; cb_R s] ->
  exists y, cb_select s (c_rep c) t = Ok y /\ shape y = [N; cb_C s; cb_F s; cb_L s] /\
  forall n ch f l, (n < N)%nat -> (ch < cb_C s)%nat -> (f < cb_F s)%nat -> (l < cb_L s)%nat ->
    get y [n; ch; f; l] = get t [n; ch; f; l; get (c_rep c) [n]].
Proof.
  intros (_ & _ & _ & Sr & Gr) Ht. destruct t as [st gt], (c_rep c) as [sr gr]. cbn [shape get] in *. subst st sr.
  unfold cb_select. destruct (view_infer_4 N (mkT [N] gr) eq_refl) as (r1 & -> & Sr1 & Gr1). cbn [bind get] in *.
  unfold size at 1 2. rewrite Sr1. cbn [nth].
  rewrite expand_ok by (rewrite Sr1; expands). cbn [bind]. rewrite Sr1.
  assert (GR: forall n a b cc, (n < N)%nat -> get r1 (bproj [N; 1; 1; 1; 1]%nat [n; a; b; cc; 0]%nat) = gr [n]).
  { intros n a b cc Hn. rewrite bproj_same by reflexivity. cbn [bidx]. clamps. auto. }
  rewrite gather_ok.
  2:{ fits. }
  2:{ intros idx Hin. cbn [shape] in Hin. inbs. unfold size; cbn [shape nth get].
      match goal with |- context [get r1 (bproj _ [_; _; _; _; ?z])] => replace z with 0%nat by lia end. rewrite GR by auto. auto. }
  cbn [bind shape]. rewrite squeeze_1 by reflexivity. cbn [remove_nth].
  eexists. split; [reflexivity|]. split; [reflexivity|].
  intros n ch f l Hn Hc Hf Hl. cbn [get insert_nth set_nth]. rewrite GR by auto. reflexivity.
Qed.

Variable EL : list nat -> (nat -> R) -> R.
Hypothesis HEL : leaf_expectation EL.
Variable lg : tensor num.
Variable lo : nat -> nat -> nat -> nat -> nat -> R.
Variable N : nat.
Hypothesis Sl : shape lg = [N; cb_C s; cb_F s; cb_L s; cb_R s].
Hypothesis Gl : forall n c f l r, (n < N)%nat -> (c < cb_C s)%nat -> (f < cb_F s)%nat -> (l < cb_L s)%nat -> (r < cb_R s)%nat ->
  get lg [n; c; f; l; r] = Fin (lo n c f l r).

Lemma cat_binomial t : map (binomial_lpl (cb_total s) (Fin t)) (seq 0 (S (cb_total s))) =
  map (fun v => Fin (ln (bpmf (cb_total s) t v))) (seq 0 (S (cb_total s))).
Proof. apply map_ext_in. intros v Hv. apply in_seq in Hv. apply binomial_lpl_fin. lia. Qed.
Lemma cb_draw_outcome supp r : outcome supp (cb_draw s lg) r -> exists t, r = Ok t /\ shape t = [N; cb_C s; cb_F s; cb_L s; cb_R s] /\
  forall idx, inb (shape t) idx -> (get t idx <= cb_total s)%nat.
Proof.
  unfold cb_draw. rewrite Sl. intros H. apply outcome_draw_tensor in H as [(e & idx & -> & _ & H)|(t & -> & St & Gt)].
  - apply outcome_cat_inv in H as (i & _ & H); [|rewrite map_length, seq_length; lia]. apply outcome_ret_inv in H. discriminate.
  - exists t. split; auto. split; auto. rewrite St. intros idx Hi. specialize (Gt idx Hi).
    apply outcome_cat_inv in Gt as (i & Hl & H); [|rewrite map_length, seq_length; lia]. rewrite map_length, seq_length in Hl.
    apply outcome_ret_inv in H. inversion H. lia.
Qed.
Definition eb (g : nat -> nat -> nat -> nat -> R) (n : nat) : leaves := fun ch f l r =>
  rsum (S (cb_total s)) (fun v => bpmf (cb_total s) (lo n ch f l r) v * g n ch f v).
Lemma cb_draw_law k c Fo grp (g : nat -> nat -> nat -> nat -> R) : cgood c N Fo (cb_L s) (cb_R s) ->
  (forall r f, (r < cb_R s)%nat -> (f < cb_F s)%nat -> (grp r f < Fo)%nat) -> routes5 s k c N grp ->
  expect EL (mbind (cb_draw s lg) (fun t => lift (k t))) (fun t => rprod3 N (cb_C s) (cb_F s) (fun n ch f => g n ch f (get t [n; ch; f]))) =
  tprod N Fo c (fun n => gleaf (cb_F s) (cb_C s) grp (eb g n)).
Proof.
  intros Hc Hg Hk. rewrite <- (tprod_gleaf N Fo (cb_F s) (cb_C s) (cb_L s) (cb_R s) c grp (eb g) Hc Hg).
  rewrite expect_bind by auto.
  set (lsel := fun n f => get (c_out c) [n; grp (get (c_rep c) [n]) f]). set (rsel := fun n => get (c_rep c) [n]).
  set (hh := fun idx v => match idx with
     | [n; ch; f; l; r] => if Nat.eqb l (lsel n f) && Nat.eqb r (rsel n) then g n ch f v else 1
     | _ => 1 end).
  assert (Hl: forall n f, (n < N)%nat -> (f < cb_F s)%nat -> (lsel n f < cb_L s)%nat /\ (rsel n < cb_R s)%nat).
  { destruct Hc as (_ & _ & Go & _ & Gr). intros n f Hn Hf. unfold lsel, rsel. auto. }
  assert (PP: forall (u : nat -> nat -> nat -> nat -> nat -> R),
     (forall n ch f l r, (n < N)%nat -> (ch < cb_C s)%nat -> (f < cb_F s)%nat -> (l < cb_L s)%nat -> (r < cb_R s)%nat ->
        l <> lsel n f \/ r <> rsel n -> u n ch f l r = 1) ->
     lprod (fun idx => match idx with [n; ch; f; l; r] => u n ch f l r | _ => 1 end)
           (all_idx [N; cb_C s; cb_F s; cb_L s; cb_R s]) =
     rprod3 N (cb_C s) (cb_F s) (fun n ch f => u n ch f (lsel n f) (rsel n))).
  { intros u Hu. rewrite lprod_all_idx_cons. unfold rprod3. apply rprod_ext. intros n Hn.
    rewrite lprod_all_idx_cons. apply rprod_ext. intros ch Hch.
    rewrite lprod_all_idx_cons. apply rprod_ext. intros f Hf. destruct (Hl n f Hn Hf) as [Hl1 Hr1].
    rewrite lprod_all_idx_cons, (rprod_single _ (lsel n f)); auto.
    - rewrite lprod_all_idx_cons, (rprod_single _ (rsel n)); auto.
      + cbn [all_idx lprod]. ring.
      + intros r Hr Hne. cbn [all_idx lprod]. rewrite Hu; auto. ring.
    - intros l Hll Hne. rewrite lprod_all_idx_cons. transitivity (rprod (cb_R s) (fun _ => 1)); [|apply rprod_one].
      apply rprod_ext. intros r Hr. cbn [all_idx lprod]. rewrite Hu; auto. ring. }
  transitivity (expect EL (cb_draw s lg) (fun t => lprod (fun idx => hh idx (get t idx)) (all_idx [N; cb_C s; cb_F s; cb_L s; cb_R s]))).
  - apply expect_ext_outcome; auto. intros t Ht. destruct (cb_draw_outcome _ _ Ht) as (t' & Et & St & _). inversion Et; subst t'.
    destruct (Hk t St) as (y & Ey & Sy & Gy). rewrite Ey. cbn [lift expect].
    transitivity (lprod (fun idx => match idx with [n; ch; f; l; r] =>
        if Nat.eqb l (lsel n f) && Nat.eqb r (rsel n) then g n ch f (get t [n; ch; f; l; r]) else 1 | _ => 1 end)
           (all_idx [N; cb_C s; cb_F s; cb_L s; cb_R s])).
    + rewrite (PP (fun n ch f l r => if Nat.eqb l (lsel n f) && Nat.eqb r (rsel n) then g n ch f (get t [n; ch; f; l; r]) else 1)).
      * apply rprod3_ext. intros n ch f Hn Hch Hf. rewrite !Nat.eqb_refl. cbn [andb]. rewrite Gy by auto. reflexivity.
      * intros. destruct (Nat.eqb_spec l (lsel n f)), (Nat.eqb_spec r (rsel n)); simpl; auto. tauto.
    + apply lprod_ext. intros idx Hin. apply in_all_idx in Hin. inbs. reflexivity.
  - unfold cb_draw. rewrite Sl, expect_draw_tensor by auto.
    rewrite (lprod_ext _ (fun idx => match idx with [n; ch; f; l; r] =>
        if Nat.eqb l (lsel n f) && Nat.eqb r (rsel n) then eb g n ch f l r else 1 | _ => 1 end)).
    + rewrite (PP (fun n ch f l r => if Nat.eqb l (lsel n f) && Nat.eqb r (rsel n) then eb g n ch f l r else 1)).
      * apply rprod3_ext. intros n ch f Hn Hch Hf. rewrite !Nat.eqb_refl. reflexivity.
      * intros. destruct (Nat.eqb_spec l (lsel n f)), (Nat.eqb_spec r (rsel n)); simpl; auto. tauto.
    + intros idx Hin. apply in_all_idx in Hin. inbs. match goal with |- context [get lg [?a; ?b; ?m; ?d; ?e]] => rename a into n, b into ch, m into f, d into l, e into r end.
      unfold hh. cbn [expect]. rewrite Gl, cat_binomial, map_length, seq_length by auto.
      rewrite (rsum_ext (S (cb_total s)) _ (fun v => bpmf (cb_total s) (lo n ch f l r) v * (if Nat.eqb l (lsel n f) && Nat.eqb r (rsel n) then g n ch f v else 1))).
      2:{ intros v Hv. rewrite catp_rows; auto; [intros; apply bpmf_pos|apply bpmf_sum]. }
      destruct (Nat.eqb _ _ && Nat.eqb _ _); [reflexivity|].
      rewrite (rsum_ext (S (cb_total s)) _ (bpmf (cb_total s) (lo n ch f l r))) by (intros; ring). apply bpmf_sum.
Qed.
End Draw.

(** * The network *)
Section Net.
Variable E : einet nat.
Hypothesis HE : einet_ok E.
Variable s : cbin.
Variable h : nat.
Hypothesis Hs : cb_ok s h.
Hypothesis Hf : cb_fits E s.
Let lf := leaf_of (e_leaf E).

Lemma cond_full_ok N x ms d : filled E s N x d -> scope E ms ->
  exists xv y out cs, cond_image s h N (entry x) xv /\ cb_fn s xv = Ok y /\ cond_full E s x ms = Ok (out, cs) /\
    cs_ok E 1 N cs (fun n => leafval (fnet E) (cq s h N y d ms n)).
Proof.
  intros [Hw Hd] Hm. destruct Hf as [fC fF fL fR]. destruct (prepare_ok E HE N x Hw) as (x1 & Ep & S1 & G1).
  destruct (cb_forward_ok E s h Hs Hf N x1 ms d) as (xv & y & t & Im & Ey & Et & St & Gt); auto.
  { rewrite fC, fF. auto. }
  { intros n c f Hn Hc Hf'. rewrite fC in Hc. rewrite fF in Hf'. rewrite G1 by auto. auto. }
  pose proof (eo_lC E HE) as lC. pose proof (eo_lF E HE) as lF. pose proof (eo_lL E HE) as lL. pose proof (eo_lR E HE) as lR.
  destruct (top_forward E HE N t (cq s h N y d ms)) as (out & cs & Eo & _ & _ & Hl & Hx).
  { rewrite lC, lF, lL, lR, St, fC, fF, fL, fR. reflexivity. }
  { intros. apply cq_pos. }
  { rewrite lC, lF, lL, lR. intros. apply Gt; rewrite ?fC, ?fF, ?fL, ?fR; auto. }
  exists xv, y, out, cs. split; [|split; [exact Ey|split]].
  - apply (image_ext s h Hs N (fun n c i => get x1 [n; c; i])); auto. intros n c i Hn Hc Hi. apply G1; auto; [lia|]. rewrite <- fF. apply (co_lt s h Hs). auto.
  - unfold cond_full. rewrite Ep. cbn [bind]. rewrite Et. cbn [bind]. fold (leaf_top E t). exact Eo.
  - split; [exact Hl|]. intros HR m Em. eexists. split; [apply Hx; auto|]. reflexivity.
Qed.

Definition cond_bottom (e : tensor (option nat)) (c : sctx) : M nat (tensor nat) :=
  mbind (lift (unpermute E c)) (fun c => cond_leaf (e_leaf E) s (Some e) c).
Lemma cond_bottom_ok e xc lg c N : (forall l, e_leaf E <> LBase l) -> cb_cond s e = Ok xc -> cb_logits s xc = Ok lg ->
  forallb (fun idx => negb (isnan (get lg idx))) (all_idx (shape lg)) = true -> (0 < N)%nat -> cgood c N (leaf_out E) (e_L E) (e_R E) ->
  exists k, routes5 s k c N (sgrp E) /\ cond_bottom e c = mbind (cb_draw s lg) (fun t => lift (k t)).
Proof.
  intros Hb Ec El Hn HN Hc. destruct Hf as [fC fF fL fR].
  pose proof (eo_ll E HE) as H. unfold cond_bottom, leaf_layer_ok, leaf_out, unpermute, sgrp, cond_leaf in *.
  pose proof (eo_lC E HE) as EC. pose proof (eo_lF E HE) as EF.
  pose proof (eo_lL E HE) as EL'. pose proof (eo_lR E HE) as ER. fold lf in EC, EF, EL', ER.
  assert (ELF: leaf_of (e_leaf E) = lf) by reflexivity. clearbody lf.
  assert (Hc': cgood c N (match e_leaf E with LFact _ Fo _ | LSimple _ Fo _ _ => Fo | LBase _ => e_F E end) (cb_L s) (cb_R s)) by (rewrite fL, fR; destruct (e_leaf E); exact Hc).
  destruct (e_leaf E) as [lf' Fo sc|lf' Fo pl pinv|lf']; cbn [leaf_of] in ELF; subst lf'; [| |exfalso; eapply Hb; reflexivity];
    destruct (e_perm E) as [[p q]|]; try tauto; cbn [lift mbind].
  - rewrite <- EF, <- ER in H. rewrite <- EL', <- ER in Hc.
    exists (fun t => bind (cb_select s (c_rep c) t) (fact_index lf Fo sc (c_n c) (c_out c) (c_rep c))). split.
    + intros t St. destruct (cb_select_ok s c N Fo t Hc' St) as (y & -> & Sy & Gy). cbn [bind].
      destruct (fact_index_ok lf Fo sc _ c N y HN H Hc) as (z & -> & Sz & Gz); [rewrite Sy; congruence|].
      exists z. split; auto. split; [rewrite Sz; congruence|]. intros n ch f Hn' Hch Hf'. rewrite Gz by (auto; lia).
      destruct Hc' as (_ & _ & Go & _ & Gr). destruct H as (_ & Gl & _). apply Gy; auto. apply Go; auto. apply Gl; [|lia]. rewrite ER, <- fR. auto.
    + unfold cb_sample. cbn [lift mbind]. rewrite Ec. cbn [lift mbind]. rewrite El. cbn [lift mbind]. rewrite Hn. cbn [guard lift mbind].
      rewrite mbind_assoc. apply mbind_ext. intros t. destruct (cb_select s (c_rep c) t); reflexivity.
  - destruct H as (HR & HFo & Hp & ->). rewrite <- EF in Hp. rewrite <- EL' in Hc.
    exists (fun t => bind (cb_select s (c_rep c) t) (simple_index lf Fo (vec (argsort pl)) (c_n c) (c_out c))). split.
    + intros t St. destruct (cb_select_ok s c N Fo t Hc' St) as (y & -> & Sy & Gy). cbn [bind].
      destruct (simple_index_ok lf Fo pl c N _ y HFo Hp Hc) as (z & -> & Sz & Gz); [rewrite Sy; congruence|].
      exists z. split; auto. split; [rewrite Sz; congruence|]. intros n ch f Hn' Hch Hf'. rewrite Gz by (auto; lia). rewrite EF.
      destruct Hc' as (_ & _ & Go & _ & Gr). apply Gy; auto. apply Go; auto. unfold simple_sgrp. apply Nat.mod_upper_bound. lia.
    + unfold cb_sample. cbn [lift mbind]. rewrite Ec. cbn [lift mbind]. rewrite El. cbn [lift mbind]. rewrite Hn. cbn [guard lift mbind].
      rewrite mbind_assoc. apply mbind_ext. intros t. destruct (cb_select s (c_rep c) t); reflexivity.
Qed.

Lemma merge_filled N e ms d t : filled E s N e d -> scope E ms -> shape t = [N; e_C E; e_F E] ->
  exists o, merge_evidence e ms t = Ok o /\ shape o = shape e /\
    forall n c f, (n < N)%nat -> (c < e_C E)%nat -> (f < e_F E)%nat ->
      entry o n c f = if marg ms f then Some (get t [n; c; f]) else Some (d n c f).
Proof.
  intros [Hw Hd] Hm St. unfold merge_evidence. rewrite St. destruct (view_3 e N _ _ Hw) as (e' & -> & Se' & Ge'). cbn [bind].
  destruct ms as [m|].
  - unfold size. rewrite Se'. cbn [nth].
    replace (forallb _ m) with true.
    2:{ symmetry. apply forallb_forall. intros f Hf'. apply Nat.ltb_lt. apply Hm. auto. }
    cbn [guard bind]. match goal with |- context [view _ ?t'] => destruct (view_back t' (shape e) N (e_C E) (e_F E) Hw eq_refl) as (o & -> & So & Go) end.
    exists o. split; auto. split; auto. intros n c f Hn Hc Hf'. rewrite Go by auto. cbn [get nth marg].
    destruct (existsb (Nat.eqb f) m); auto. rewrite Ge' by auto. apply Hd; auto.
  - cbn [bind]. match goal with |- context [view _ ?t'] => destruct (view_back t' (shape e) N (e_C E) (e_F E) Hw Se') as (o & -> & So & Go) end.
    exists o. split; auto. split; auto. intros n c f Hn Hc Hf'. rewrite Go by auto. cbn [get marg].
    rewrite Ge' by auto. destruct (Hd n c f Hn Hc Hf') as [-> _]. reflexivity.
Qed.

Definition cond_core (a : sargs) (cs : caches) (e : tensor (option nat)) : M nat (tensor nat) := mbind (walk E a cs) (cond_bottom e).
Lemma cond_sample_core a cs e : a_ev a = Some e -> check_args E a = Ok tt -> cond_caches E s a = Ok cs ->
  cond_sample E s a = mbind (cond_core a cs e) (fun t => lift (merge_evidence e (a_ms a) t)).
Proof.
  intros H0 H1 H2. unfold cond_sample, cond_core, cond_bottom, walk. rewrite H1, H2, H0. cbn [lift mbind].
  repeat first [rewrite !mbind_assoc | apply mbind_ext; intros ?]. reflexivity.
Qed.

Variable EL : list nat -> (nat -> R) -> R.
Hypothesis HEL : leaf_expectation EL.

Lemma cond_sample_law a e N d : (forall l, e_leaf E <> LBase l) -> a_ev a = Some e -> check_args E a = Ok tt ->
  shape e = [N; e_C E; e_F E] -> filled E s N e d -> scope E (a_ms a) -> (0 < N)%nat -> a_mpe a = false -> a_tsum a = 1 ->
  (forall supp r, outcome supp (cond_sample E s a) r -> exists o, r = Ok o /\ shape o = shape e /\
     forall n c f, (n < N)%nat -> (c < e_C E)%nat -> (f < e_F E)%nat ->
       exists v, entry o n c f = Some v /\ (v <= cb_total s)%nat /\ (marg (a_ms a) f = false -> v = d n c f)) /\
  exists xv y, cond_image s h N (entry e) xv /\ cb_fn s xv = Ok y /\
  (groups_agree E -> forall g : nat -> nat -> nat -> option nat -> R,
     expect EL (cond_sample E s a) (fun o => rprod3 N (e_C E) (e_F E) (fun n c f => g n c f (entry o n c f))) =
     rprod N (fun n => rsum (e_K E) (fun k => cweight E a n k *
       (neteval (fnet E) (fun c f l r =>
          if marg (a_ms a) f then rsum (S (cb_total s)) (fun v => bpmf (cb_total s) (logit s h N y n c f l r) v * g n c f (Some v))
          else bpmf (cb_total s) (logit s h N y n c f l r) (d n c f) * g n c f (Some (d n c f))) k /
        neteval (fnet E) (cq s h N y d (a_ms a) n) k)))).
Proof.
  intros Hb Hev Hch Se Hfl Hm HN Hmpe HT.
  assert (Hcl: class_ok E a).
  { unfold class_ok. unfold check_args in Hch. rewrite Hev in Hch. destruct (a_class a); auto; discriminate. }
  assert (En: num_samples a = N) by (unfold num_samples; rewrite Hev; unfold size; rewrite Se; reflexivity).
  destruct (cond_full_ok N e (a_ms a) d Hfl Hm) as (xv & y & out & cs & Im & Ey & Ef & Hcs).
  assert (Ec: cond_caches E s a = Ok cs) by (unfold cond_caches; rewrite Hev, Ef; reflexivity).
  rewrite (cond_sample_core a cs e Hev Hch Ec).
  destruct Hf as [fC fF fL fR].
  destruct (cb_logits_ok s h N e Hs ltac:(rewrite fC, fF; exact Se)) as (xc & xv' & y' & lg & Exc & Im' & Ey' & Elg & Sl & Gl).
  assert (Im2: cond_image s h N (entry e) xv').
  { destruct Im' as [I1 I2]. split; auto. intros n c i j Hn Hc Hi Hj. rewrite I2 by auto. unfold entry. rewrite Se. reflexivity. }
  assert (Sx: same_on xv' xv) by (eapply (image_same s h Hs); [|exact Im2|exact Im]; auto).
  pose proof (co_ext s h Hs _ _ _ _ _ (proj1 Im') Sx Ey' Ey) as Sy. pose proof (fn_numel s h Hs N xv' y' (proj1 Im') Ey') as Ny.
  assert (Nan: forallb (fun idx => negb (isnan (get lg idx))) (all_idx (shape lg)) = true).
  { apply forallb_forall. intros idx Hi. apply in_all_idx in Hi. rewrite Sl in Hi. inbs. rewrite Gl by auto. reflexivity. }
  assert (Gl': forall n c f l r, (n < N)%nat -> (c < cb_C s)%nat -> (f < cb_F s)%nat -> (l < cb_L s)%nat -> (r < cb_R s)%nat ->
    get lg [n; c; f; l; r] = Fin (logit s h N y n c f l r)).
  { intros n c f l r Hn Hc Hf' Hl Hr. rewrite Gl by auto. f_equal. apply logit_same; auto. }
  set (v := fun n => leafval (fnet E) (cq s h N y d (a_ms a) n)) in *.
  assert (Pv: forall n, (n < N)%nat -> vpos (leaf_out E) (e_L E) (e_R E) (v n)).
  { intros n Hn dd k r Hd Hk Hr. apply (leafval_pos (fnet E)); auto. intros. apply cq_pos. }
  destruct (walk_law E HE EL HEL a cs v Hcl) as [O X]; rewrite ?En; auto; [lra|rewrite HT; auto|]. rewrite En in O, X. rewrite HT in X.
  assert (HG: forall r f, (r < cb_R s)%nat -> (f < cb_F s)%nat -> (sgrp E r f < leaf_out E)%nat).
  { rewrite fF, fR. intros. apply sgrp_lt; auto. }
  assert (Out: forall supp r, outcome supp (cond_core a cs e) r -> exists t, r = Ok t /\ shape t = [N; e_C E; e_F E] /\
    forall n c f, (n < N)%nat -> (c < e_C E)%nat -> (f < e_F E)%nat -> (get t [n; c; f] <= cb_total s)%nat).
  { intros supp r Ho. unfold cond_core in Ho. apply outcome_bind in Ho as [(e0 & Ho & _)|(c & Ho & Hr)].
    { destruct (O _ _ Ho) as (c' & Z & _). discriminate. }
    destruct (O _ _ Ho) as (c' & Z & Gc & _). inversion Z; subst c'.
    destruct (cond_bottom_ok e xc lg c N Hb Exc Elg Nan HN Gc) as (k & Hk & Eb). rewrite Eb in Hr.
    apply outcome_bind in Hr as [(e0 & Hr & _)|(t & Ht & Hr)].
    { destruct (cb_draw_outcome s lg N Sl _ _ Hr) as (t & Z' & _). discriminate. }
    destruct (cb_draw_outcome s lg N Sl _ _ Ht) as (t' & Z' & St & Gt). inversion Z'; subst t'.
    destruct (Hk t St) as (o & Eo & So & Go). rewrite Eo in Hr. apply outcome_ret_inv in Hr. exists o. split; auto.
    rewrite fC, fF in So, Go. split; auto. intros n c0 f Hn Hc0 Hf'. rewrite Go by auto. apply Gt. rewrite St.
    pose proof Gc as (_ & _ & G3 & _ & G5). cbn [inb]. rewrite fC, fF, fL, fR. repeat split; auto. apply G3; auto. apply sgrp_lt; auto. }
  split; [|exists xv, y; split; [exact Im|split; [exact Ey|]]].
  - intros supp r Ho. apply outcome_bind in Ho as [(e0 & Ho & _)|(t & Ho & Hr)].
    { destruct (Out _ _ Ho) as (c' & Z & _). discriminate. }
    destruct (Out _ _ Ho) as (t' & Z & St & Gt). inversion Z; subst t'.
    destruct (merge_filled N e (a_ms a) d t Hfl Hm St) as (o & Eo & So & Go). rewrite Eo in Hr. apply outcome_ret_inv in Hr. subst r.
    exists o. split; auto. split; auto. intros n c f Hn Hc Hf'. rewrite Go by auto. destruct (marg (a_ms a) f).
    + eexists. split; [reflexivity|]. split; [auto|discriminate].
    + eexists. split; [reflexivity|]. split; [|auto]. apply Hfl; auto.
  - intros Ag g. rewrite expect_bind by auto.
    set (g' := fun n c f w => g n c f (if marg (a_ms a) f then Some w else Some (d n c f))).
    rewrite (expect_ext_outcome EL HEL _ _ (fun t => rprod3 N (e_C E) (e_F E) (fun n c f => g' n c f (get t [n; c; f])))).
    2:{ intros t Ho. destruct (Out _ _ Ho) as (t' & Z & St & _). inversion Z; subst t'.
        destruct (merge_filled N e (a_ms a) d t Hfl Hm St) as (o & Eo & So & Go). rewrite Eo. cbn [lift expect].
        apply rprod3_ext. intros n c f Hn Hc Hf'. rewrite Go by auto. reflexivity. }
    unfold cond_core. rewrite expect_bind by auto.
    rewrite (expect_ext_outcome EL HEL _ _ (fun c => tprod N (leaf_out E) c (fun n => gleaf (e_F E) (e_C E) (sgrp E) (eb s (logit s h N y) g' n)))).
    2:{ intros c Ho. destruct (O _ _ Ho) as (c' & Z & Gc & _). inversion Z; subst c'.
        destruct (cond_bottom_ok e xc lg c N Hb Exc Elg Nan HN Gc) as (k & Hk & Eb). rewrite Eb. rewrite <- fL, <- fR in Gc.
        pose proof (cb_draw_law s EL HEL lg (logit s h N y) N Sl Gl' k c (leaf_out E) (sgrp E) g' Gc HG Hk) as D.
        rewrite fC, fF in D. exact D. }
    rewrite X. apply rprod_ext. intros n Hn. apply rsum_ext. intros k Hk. f_equal. unfold neteval.
    pose proof (layers_chain 1 _ _ _ _ _ _ (eo_layers E HE)) as C.
    unfold us. cbn [fnet net_with nR nmix nls]. f_equal.
    apply rsum_ext. intros r Hr. f_equal. eapply (evals_ext (e_R E)); [exact C| | | |]; auto.
    intros dd q r' Hd Hq Hr'. unfold vmul, v. unfold fnet; rewrite ?leafval_net. unfold gleaf. rewrite <- rprod_mult.
    apply rprod_ext. intros f Hf'. rewrite Ag by auto. destruct (Nat.eqb (fgrp E r' f) dd); [|ring].
    rewrite <- rprod_mult. apply rprod_ext. intros c Hc. unfold eb, cq, g'.
    destruct (marg (a_ms a) f); [ring|].
    rewrite rsum_scal_r, bpmf_sum. ring.
Qed.
End Net.

(** * The claims *)
Lemma top_down_leaf {V} g (o : oracle V) E : accepted g o E -> g_struct g = STopDown -> forall l, e_leaf E <> LBase l.
Proof.
  intros [H1 H2 H3] Hs l. assert (Hz: sizes_ok g) by (pose proof H3 as H'; unfold build in H'; apply bind_ok in H' as ([] & Ha & _); apply (assert_valid_inv g Ha H1)).
  destruct (build_input_layer g o E H2 Hz Hs H3) as (lf & ->). destruct (nval (g_R g) =? 1)%nat; discriminate.
Qed.
Lemma bottom_up_leaf {V} g (o : oracle V) E : accepted g o E -> g_struct g = SBottomUp -> exists l, e_leaf E = LBase l.
Proof.
  intros [H1 H2 H] Est. unfold build in H. apply bind_ok in H as ([] & Ha & H). rewrite Est in H. unfold build_bottom_up in H.
  apply bind_ok in H as (ls & H0 & H). apply bind_ok in H as (ls1 & _ & H). apply bind_ok in H as ([] & Hg0 & H).
  apply bind_ok in H as (l & _ & H). apply bind_ok in H as (rs & H3 & H). apply bind_ok in H as (lf0 & H3' & H).
  apply bind_ok in H as (m & H4 & H). apply bind_ok in H as (rr & H5 & H). inversion H; subst E. eexists. reflexivity.
Qed.
(** sample(evidence=e, marginalized_scopes=sc) and a table of rows as a batch *)
Definition complete (e : tensor (option nat)) (sc : list nat) : sargs (V := nat) := mkArgs None CNone (Some e) false false 1 (Some sc).
Definition rows (N C F : nat) (xs : nat -> nat -> nat -> nat) : tensor (option nat) :=
  mkT [N; C; F] (fun idx => match idx with [n; c; f] => Some (xs n c f) | _ => None end).
Lemma complete_args E e sc : check_args E (complete e sc) = Ok tt.
Proof. unfold check_args. cbn. destruct (e_K E =? 1)%nat; reflexivity. Qed.

Section Claims.
Variables (g : config) (o : oracle nat) (E : einet nat) (s : cbin) (h : nat).
Hypothesis A : accepted g o E.
Hypothesis Top : g_struct g = STopDown.
Hypothesis Hs : cb_ok s h.
Hypothesis Hf : cb_fits E s.
Variables (N : nat) (e : tensor (option nat)) (d : nat -> nat -> nat -> nat) (sc : list nat).
Hypothesis Se : shape e = [N; e_C E; e_F E].
Hypothesis Hd : filled E s N e d.
Hypothesis Hsc : forall f, In f sc -> (f < e_F E)%nat.
Hypothesis HN : (0 < N)%nat.

(** Completing evidence without missing values always succeeds, keeps the other features and returns values of the leaves. *)
Theorem C93_keeps : forall supp r, outcome supp (cond_sample E s (complete e sc)) r ->
  exists t, r = Ok t /\ shape t = shape e /\ forall n c f, (n < N)%nat -> (c < e_C E)%nat -> (f < e_F E)%nat ->
    exists v, entry t n c f = Some v /\ (v <= cb_total s)%nat /\ (~ In f sc -> v = d n c f).
Proof.
  destruct (cond_sample_law E (accepted_ok _ _ E A) s h Hs Hf (fun _ q => q 0%nat) ltac:(split; intros; auto)
    (complete e sc) e N d (top_down_leaf _ _ E A Top) eq_refl (complete_args E e sc) Se Hd Hsc HN eq_refl eq_refl) as [O _].
  intros supp r Ho. destruct (O supp r Ho) as (t & -> & St & Gt). exists t. split; auto. split; auto. intros n c f Hn Hc Hf'.
  destruct (Gt n c f Hn Hc Hf') as (v & Ev & Hv & Hk). exists v. split; auto. split; auto. intros Hi. apply Hk. cbn [complete a_ms marg].
  destruct (existsb (Nat.eqb f) sc) eqn:Ex; auto. exfalso. apply Hi. apply existsb_eqb_In. auto.
Qed.

Hypothesis Co : consistent g.
Variable EL : list nat -> (nat -> R) -> R.
Hypothesis HEL : leaf_expectation EL.
Variable xs : nat -> nat -> nat -> nat.
Hypothesis Hxs : forall n c f, (n < N)%nat -> (c < e_C E)%nat -> (f < e_F E)%nat -> (xs n c f <= cb_total s)%nat.

Lemma complete_prob : exists xv y, cond_image s h N (entry e) xv /\ cb_fn s xv = Ok y /\
  expect EL (cond_sample E s (complete e sc)) (fun t => if rows_are N (e_C E) (e_F E) xs t then 1 else 0) =
  rprod N (fun n => rsum (e_K E) (fun k => cweight E (complete e sc) n k *
       (neteval (fnet E) (fun c f l r =>
          if marg (Some sc) f then bpmf (cb_total s) (logit s h N y n c f l r) (xs n c f)
          else bpmf (cb_total s) (logit s h N y n c f l r) (d n c f) * (if (d n c f =? xs n c f)%nat then 1 else 0)) k /
        neteval (fnet E) (cq s h N y d (Some sc) n) k))).
Proof.
  destruct (cond_sample_law E (accepted_ok _ _ E A) s h Hs Hf EL HEL
    (complete e sc) e N d (top_down_leaf _ _ E A Top) eq_refl (complete_args E e sc) Se Hd Hsc HN eq_refl eq_refl) as (_ & xv & y & Im & Ey & X).
  exists xv, y. split; auto. split; auto.
  rewrite (expect_ext EL HEL _ _ (fun t => rprod3 N (e_C E) (e_F E) (fun n c f => eqv (entry t n c f) (xs n c f)))) by (intros t; apply rows_are_rprod).
  rewrite (X (agree_groups g o E A Co) (fun n c f v => eqv v (xs n c f))). apply rprod_ext. intros n Hn. apply rsum_ext. intros k Hk. f_equal. f_equal.
  apply neteval_ext; [apply fnet_wf; apply (accepted_ok _ _ E A)|auto|]. intros c f l r Hc Hf' Hl Hr. cbn [complete a_ms]. destruct (marg (Some sc) f); [|reflexivity].
  rewrite (rsum_single (S (cb_total s)) (xs n c f)).
  - cbn [eqv]. rewrite Nat.eqb_refl. ring.
  - specialize (Hxs n c f Hn Hc Hf'). lia.
  - intros v _ Hv. cbn [eqv]. destruct (Nat.eqb_spec v (xs n c f)); [congruence|ring].
Qed.

(** Completions that contradict the evidence are never drawn. *)
Theorem C93_contradiction : (exists n c f, (n < N)%nat /\ (c < e_C E)%nat /\ (f < e_F E)%nat /\ ~ In f sc /\ xs n c f <> d n c f) ->
  expect EL (cond_sample E s (complete e sc)) (fun t => if rows_are N (e_C E) (e_F E) xs t then 1 else 0) = 0.
Proof.
  intros (n & c & f & Hn & Hc & Hf' & Hi & Hx).
  transitivity (expect EL (cond_sample E s (complete e sc)) (fun _ => 0 * 1)).
  - apply expect_ext_outcome; auto. intros t Ho. destruct (C93_keeps _ _ Ho) as (t' & Et & _ & Gt). inversion Et; subst t'.
    destruct (Gt n c f Hn Hc Hf') as (v & Ev & _ & Hv). rewrite rows_are_rprod. unfold rprod3. rewrite Rmult_0_l.
    apply (rprod_zero _ n); auto. apply (rprod_zero _ c); auto. apply (rprod_zero _ f); auto. rewrite Ev, (Hv Hi). cbn [eqv].
    destruct (Nat.eqb_spec (d n c f) (xs n c f)); [congruence|reflexivity].
  - rewrite expect_scal by auto. ring.
Qed.

Lemma complete_lik : (forall f, In f sc -> ~ In f (cb_idxs s)) ->
  (forall n c f, (n < N)%nat -> (c < e_C E)%nat -> (f < e_F E)%nat -> ~ In f sc -> xs n c f = d n c f) ->
  expect EL (cond_sample E s (complete e sc)) (fun t => if rows_are N (e_C E) (e_F E) xs t then 1 else 0) =
  rprod N (fun n => rsum (e_K E) (fun k => cweight E (complete e sc) n k *
    (clik E s (rows N (e_C E) (e_F E) xs) None n k / clik E s e (Some sc) n k))).
Proof.
  intros Dis Hx. pose proof (accepted_ok _ _ E A) as HE. destruct complete_prob as (xv & y & Im & Ey & ->). apply rprod_ext. intros n Hn.
  apply rsum_ext. intros k Hk. f_equal.
  assert (Fx: filled E s N (rows N (e_C E) (e_F E) xs) xs) by (split; [right; left; reflexivity|intros; split; [reflexivity|auto]]).
  destruct (clik_ok E HE s h Hs Hf N (rows N (e_C E) (e_F E) xs) None xs n k Fx I Hn Hk) as (xv1 & y1 & Im1 & Ey1 & ->).
  destruct (clik_ok E HE s h Hs Hf N e (Some sc) d n k Hd Hsc Hn Hk) as (xv2 & y2 & Im2 & Ey2 & ->).
  assert (Q: forall xv' y' z, cond_image s h N z xv' -> cb_fn s xv' = Ok y' -> (forall n c i, (n < N)%nat -> (c < cb_C s)%nat -> In i (cb_idxs s) -> entry e n c i = z n c i) ->
    forall c f l r, (c < e_C E)%nat -> (l < e_L E)%nat -> (r < e_R E)%nat -> logit s h N y n c f l r = logit s h N y' n c f l r).
  { intros xv' y' z Im' Ey' Hz c f l r Hc Hl Hr. destruct Hf as [fC fF fL fR].
    assert (Sx: same_on xv xv') by (eapply (image_same s h Hs); [|exact Im|exact Im']; auto).
    apply logit_same; auto; try lia; [exact (co_ext s h Hs _ _ _ _ _ (proj1 Im) Sx Ey Ey')|exact (fn_numel s h Hs N xv y (proj1 Im) Ey)]. }
  assert (Q1 := Q xv1 y1 _ Im1 Ey1). assert (Q2 := Q xv2 y2 _ Im2 Ey2). clear Q. f_equal.
  - apply neteval_ext; [apply fnet_wf; auto|exact Hk|]. intros c f l r Hc Hf' Hl Hr. unfold cq. cbn [marg]. rewrite <- Q1; auto.
    + destruct (existsb (Nat.eqb f) sc) eqn:Ex; auto. rewrite <- (Hx n c f Hn Hc Hf'). { rewrite Nat.eqb_refl. ring. }
      intros Hi. apply existsb_eqb_In in Hi. congruence.
    + intros n' c' i Hn' Hc' Hi. destruct Hf as [fC fF fL fR]. rewrite fC in Hc'. pose proof (co_lt s h Hs i Hi) as Hi'. rewrite fF in Hi'.
      destruct Hd as [_ Hd']. destruct (Hd' n' c' i Hn' Hc' Hi') as [-> _]. unfold entry. cbn [rows shape ix get]. f_equal. symmetry. apply Hx; auto. intros H. exact (Dis i H Hi).
  - apply neteval_ext; [apply fnet_wf; auto|exact Hk|]. intros c f l r Hc Hf' Hl Hr. unfold cq. rewrite <- Q2; auto.
Qed.
(** The law: for scopes without conditioning features and one class, completed rows have the conditional probabilities of the
    likelihoods that the network itself returns. *)
Theorem C93_conditional : e_K E = 1%nat -> (forall f, In f sc -> ~ In f (cb_idxs s)) ->
  (forall n c f, (n < N)%nat -> (c < e_C E)%nat -> (f < e_F E)%nat -> ~ In f sc -> xs n c f = d n c f) ->
  expect EL (cond_sample E s (complete e sc)) (fun t => if rows_are N (e_C E) (e_F E) xs t then 1 else 0) =
  rprod N (fun n => clik E s (rows N (e_C E) (e_F E) xs) None n 0 / clik E s e (Some sc) n 0).
Proof.
  intros HK Dis Hx. rewrite complete_lik by auto. apply rprod_ext. intros n Hn. rewrite HK, rsum_S, rsum_0. unfold cweight. rewrite HK. cbn [Nat.ltb Nat.leb]. ring.
Qed.
(** With several classes the class of a row is drawn from the prior, whatever the evidence says (as in C53), and the rest given it. *)
Theorem C93_prior_partial : (1 < e_K E)%nat -> (forall f, In f sc -> ~ In f (cb_idxs s)) ->
  (forall n c f, (n < N)%nat -> (c < e_C E)%nat -> (f < e_F E)%nat -> ~ In f sc -> xs n c f = d n c f) ->
  expect EL (cond_sample E s (complete e sc)) (fun t => if rows_are N (e_C E) (e_F E) xs t then 1 else 0) =
  rprod N (fun n => rsum (e_K E) (fun k => exp (toR (o_root o [0; k; 0; 0]%nat)) / rsum (e_K E) (fun j => exp (toR (o_root o [0; j; 0; 0]%nat))) *
    (clik E s (rows N (e_C E) (e_F E) xs) None n k / clik E s e (Some sc) n k))).
Proof.
  intros HK Dis Hx. rewrite complete_lik by auto. apply rprod_ext. intros n Hn. apply rsum_ext. intros k Hk. f_equal. unfold cweight.
  destruct (Nat.ltb_spec 1 (e_K E)); [|lia]. cbn [complete a_class a_tsum]. apply (wroot_soft g o); auto.
Qed.
End Claims.
Print Assumptions C93_keeps.
Print Assumptions C93_contradiction.
Print Assumptions C93_conditional.
Print Assumptions C93_prior_partial.

(** * Where it does not work *)
(** In bottom-up networks ConditionalBinomial.sample gathers with an index of three dimensions from four: no call returns. *)
Theorem C93_bottom_up_refuted : forall g o E s a supp r, accepted g o E -> g_struct g = SBottomUp -> outcome supp (cond_sample E s a) r -> exists e, r = Err e.
Proof.
  intros g o E s a supp r A Hb Ho. destruct (bottom_up_leaf g o E A Hb) as (l & El). pose proof (eo_ll E (accepted_ok _ _ E A)) as Hl. unfold leaf_layer_ok in Hl.
  assert (Step: forall X Y (m : M nat X) (q : X -> M nat Y), (forall x r, outcome supp (q x) r -> exists e, r = Err e) -> forall r, outcome supp (mbind m q) r -> exists e, r = Err e).
  { intros X Y m q Hq r' H. apply outcome_bind in H as [(e & _ & ->)|(x & _ & H)]; eauto. }
  assert (StepL: forall X Y (m : M nat X) (q : X -> M nat Y), (forall r, outcome supp m r -> exists e, r = Err e) -> forall r, outcome supp (mbind m q) r -> exists e, r = Err e).
  { intros X Y m q Hq r' H. apply outcome_bind in H as [(e & _ & ->)|(x & H & _)]; eauto. destruct (Hq _ H). discriminate. }
  assert (Lf: forall X (m : res X) r, outcome supp (lift m) r -> r = m).
  { intros X m r' H. destruct m; inversion H; auto. }
  unfold cond_sample in Ho. revert r Ho. do 5 (apply Step; intros ?). rename x3 into c.
  intros r Ho. apply outcome_bind in Ho as [(e & _ & ->)|(c' & Hc & Ho)]; [eauto|]. apply Lf in Hc.
  assert (R2: exists n F, shape (c_out c') = [n; F]).
  { rewrite El in Hl. unfold unpermute in Hc. destruct (e_perm E) as [[p q]|]; [|contradiction].
    unfold index_dim in Hc. destruct (shape (c_rep c)) as [|n [|]]; try discriminate.
    destruct (forallb _ _) in Hc; [|discriminate]. cbn [bind] in Hc. unfold gather in Hc.
    destruct (_ && _) in Hc; [|discriminate]. cbn [bind] in Hc. inversion Hc. exists n, (e_F E). reflexivity. }
  destruct R2 as (n & F & R2). revert r Ho. apply StepL. rewrite El. cbn [cond_leaf]. unfold cb_sample.
  do 5 (apply Step; intros ?). intros r Ho. apply outcome_bind in Ho as [(e & _ & ->)|(t & Ht & Ho)]; [eauto|]. apply Lf in Ht. apply Lf in Ho. subst r.
  assert (R4: exists n1 n2 n3 n4, shape t = [n1; n2; n3; n4]).
  { unfold cb_select in Ht. destruct (view_infer [] [1; 1; 1; 1]%nat (c_rep c')) as [r1|] eqn:E1; [|discriminate]. cbn [bind] in Ht.
    assert (S4: size r1 4 = 1%nat).
    { unfold view_infer in E1. destruct (_ =? 0)%nat in E1; [discriminate|]. unfold view in E1. destruct (_ =? _)%nat in E1; [|discriminate]. inversion E1. reflexivity. }
    rewrite S4 in Ht. unfold expand in Ht. destruct (expandable _ _) in Ht; [|discriminate]. cbn [bind] in Ht.
    unfold gather in Ht. destruct (_ && _) in Ht; [|discriminate]. cbn [bind shape] in Ht. inversion Ht. unfold squeeze, size. cbn. eauto. }
  destruct R4 as (n1 & n2 & n3 & n4 & R4). cbn [cb_parents]. unfold gather. cbn [unsqueeze shape]. rewrite R2, R4. cbn [insert_nth gather_fits combine length Nat.eqb].
  rewrite ?andb_false_r. cbn [andb bind]. eauto.
Qed.
(** Without evidence no call returns. *)
Theorem C93_free_refuted : forall E s a supp r, a_ev a = None -> outcome supp (cond_sample E s a) r -> exists e, r = Err e.
Proof.
  intros E s a supp r Ha Ho.
  assert (Step: forall X Y (m : M nat X) (q : X -> M nat Y), (forall x r, outcome supp (q x) r -> exists e, r = Err e) -> forall r, outcome supp (mbind m q) r -> exists e, r = Err e).
  { intros X Y m q Hq r' H. apply outcome_bind in H as [(e & _ & ->)|(x & _ & H)]; eauto. }
  unfold cond_sample in Ho. rewrite Ha in Ho. revert r Ho. do 6 (apply Step; intros ?). intros r Ho.
  destruct (e_leaf E); cbn [cond_leaf cb_sample lift mbind] in Ho; inversion Ho; eauto.
Qed.
(** Evidence with a missing value is rejected. *)
Theorem C93_missing_refuted : forall g o E s a N x n c f supp r, accepted g o E -> cb_fits E s -> a_ev a = Some x -> wshape (shape x) N (e_C E) (e_F E) ->
  (n < N)%nat -> (c < e_C E)%nat -> (f < e_F E)%nat -> entry x n c f = None -> outcome supp (cond_sample E s a) r -> exists e, r = Err e.
Proof.
  intros g o E s a N x n c f supp r A Hf Ha Hw Hn Hc Hf' Hx Ho. destruct (C92_missing_refuted g o E s N x (a_ms a) n c f A Hf Hw Hn Hc Hf' Hx) as (e & Ee).
  unfold cond_forward in Ee. destruct (cond_full E s x (a_ms a)) as [[y cs]|e'] eqn:E1; [discriminate|].
  unfold cond_sample, cond_caches in Ho. rewrite Ha, E1 in Ho. destruct (check_args E a) as [[]|]; cbn [lift mbind bind] in Ho; inversion Ho; eauto.
Qed.
Print Assumptions C93_bottom_up_refuted.
Print Assumptions C93_free_refuted.
Print Assumptions C93_missing_refuted.

(** Redrawing a conditioning feature: the logits keep the value that is being replaced. The completion [1;1] of the row [1;0] has
    probability 1/2 whatever the conditioning function says, the likelihoods of the network ask for another one. *)
Theorem C93_overlap_refuted : forall g o E t EL, accepted g o E -> g_struct g = STopDown -> consistent g -> leaf_expectation EL ->
  e_C E = 1%nat -> e_F E = 2%nat -> e_K E = 1%nat -> t <> 0 ->
  let s := selfcond t 1 (e_L E) (e_R E) in
  let p := clik E s (point 1 2 [1; 1]%nat) None 0 0 in
  expect EL (cond_sample E s (complete (point 1 2 [1; 0]%nat) [1%nat])) (fun x => if rows_are 1 1 2 (fun _ _ _ => 1%nat) x then 1 else 0) = 1 / 2 /\
  p / (clik E s (point 1 2 [1; 0]%nat) None 0 0 + p) <> 1 / 2.
Proof.
  intros g o E t EL A Top Co HEL EC EF EK Ht s p. pose proof (accepted_ok _ _ E A) as HE. pose proof (fnet_wf E HE) as SW.
  assert (Hs: cb_ok s 1) by (apply selfcond_ok; lia). assert (Hf: cb_fits E s) by (split; cbn; auto).
  assert (Hd: filled E s 1 (point 1 2 [1; 0]%nat) (fun _ _ f => nth f [1; 0]%nat 0%nat)).
  { split; [rewrite EF, EC; right; left; reflexivity|]. rewrite EF, EC. intros n c f Hn Hc Hf'. assert (c = 0)%nat by lia. subst c. split; [reflexivity|].
    cbn [cb_total s selfcond]. destruct f as [|[|]]; cbn; lia. }
  assert (B: forall t, bpmf 1 t 1 = sigm t) by (intros; unfold bpmf, Binomial.C; change (1 - 0)%nat with 1%nat; change (1 - 1)%nat with 0%nat; change (fact 1) with 1%nat; change (fact 0) with 1%nat; cbn [pow INR]; field).
  assert (B0: bpmf 1 0 0 = 1 / 2) by (unfold bpmf, Binomial.C; change (1 - 0)%nat with 1%nat; change (1 - 1)%nat with 0%nat; change (fact 1) with 1%nat; change (fact 0) with 1%nat; cbn [pow INR]; rewrite sigm_0; field).
  split.
  - destruct (complete_prob g o E s 1 A Top Hs Hf 1 (point 1 2 [1; 0]%nat) (fun _ _ f => nth f [1; 0]%nat 0%nat) [1%nat]) with (EL := EL) (xs := fun _ _ _ : nat => 1%nat) as (xv & y & Im & Ey & X); auto.
    { rewrite EC, EF. reflexivity. }
    { intros f [<-|[]]. lia. }
    rewrite EC, EF, EK in X. rewrite X. clear X. rewrite rprod_S, rprod_0, rsum_S, rsum_0. unfold cweight. rewrite EK. cbn [Nat.ltb Nat.leb].
    set (q := cq s 1 1 y (fun _ _ f => nth f [1; 0]%nat 0%nat) (Some [1%nat]) 0).
    assert (Hk: (0 < nCls (fnet E))%nat) by (change (0 < e_K E)%nat; lia).
    assert (Hq: forall c f l r, (c < nC (fnet E))%nat -> (f < nF (fnet E))%nat -> (l < nL (fnet E))%nat -> (r < nR (fnet E))%nat -> 0 < q c f l r).
    { intros c f l r _ _ _ _. unfold q, cq. destruct (marg _ f); [lra|apply bpmf_pos]. }
    rewrite (neteval_ext (fnet E) _ (fun c f l r => (if (f =? 1)%nat then 1 / 2 else 1) * q c f l r) 0 SW Hk).
    + rewrite (neteval_scale (fnet E) q (fun c f => if (f =? 1)%nat then 1 / 2 else 1) 0 SW Hk); [|intros; left; auto|intros c f; destruct (f =? 1)%nat; lra].
      change (nC (fnet E)) with (e_C E). change (nF (fnet E)) with (e_F E). rewrite EC, EF, !rprod_S, !rprod_0. cbn [Nat.eqb].
      assert (0 < neteval (fnet E) q 0) by (apply neteval_pos; auto). field. lra.
    + intros c f l r Hc Hf' Hl Hr. change (c < e_C E)%nat in Hc. change (f < e_F E)%nat in Hf'. rewrite EC in Hc. rewrite EF in Hf'. assert (c = 0)%nat by lia. subst c.
      unfold q, cq. assert (f = 0 \/ f = 1)%nat as [-> | ->] by lia; cbn [marg existsb Nat.eqb orb nth].
      * ring.
      * change (cb_total s) with 1%nat. rewrite B. unfold logit. change (1 <? 1 * 1)%nat with false. cbn [s selfcond cb_unc get toR]. rewrite sigm_0. ring.
  - unfold p, s. rewrite !(selfcond_lik _ _ E t 1 0 _ A EC EF) by (try lia; cbn; auto). cbn [nth Nat.eqb]. rewrite !B, B0, sigm_0.
    assert (0 < sigm t) by (unfold sigm; apply Rinv_0_lt_compat; apply Rplus_lt_0_compat; [lra|apply exp_pos]).
    intros H1. apply Ht. apply sigm_inj. rewrite sigm_0. apply (f_equal (fun z => z * (1 / 2 * (1 / 2) + sigm t * (1 / 2)))) in H1.
    unfold Rdiv at 1 in H1. rewrite Rmult_assoc, Rinv_l in H1 by lra. lra.
Qed.
Print Assumptions C93_overlap_refuted.

(** * One class, one repetition *)
Definition ex1_g : config := plain 2 1 3 2 1 1 1 0 TEinsum STopDown.
Definition ex1_o : oracle nat := choices [1; 1]%nat (fun r => [1; 0]%nat) third.
Lemma ex1_oracle : oracle_ok ex1_g ex1_o.
Proof.
  apply choices_ok.
  - cbn. perms.
  - intros r Hr. unfold perm_len, plain. cbn [g_struct g_R g_F]. rewrite !nval_nat. cbn [Nat.eqb]. perms.
Qed.
Lemma ex1 : exists E, accepted ex1_g ex1_o E /\ e_F E = 2%nat /\ e_C E = 1%nat /\ e_K E = 1%nat.
Proof.
  destruct (build_succeeds ex1_g ex1_o) as (E & HE).
  - apply plain_valid; try lia; try lra; try congruence; simpl; lia.
  - reflexivity.
  - apply ex1_oracle.
  - exists 0%R. split; [constructor|lra].
  - cbn [ex1_g plain g_depth zval]. lia.
  - discriminate.
  - exists E. assert (A: accepted ex1_g ex1_o E) by (split; [reflexivity|apply ex1_oracle|exact HE]).
    destruct (build_inv ex1_g ex1_o E eq_refl ex1_oracle HE) as (_ & EF & EC & ER & EK).
    split; [exact A|]. rewrite EF, EC, EK. cbn. rewrite ?nval_nat. auto.
Qed.
Lemma ex1_consistent : consistent ex1_g.
Proof. unfold consistent. cbn [ex1_g plain g_struct g_R g_depth g_F]. rewrite !nval_nat. cbn. auto. Qed.
(** All the hypotheses of C93_conditional, and a probability that is not 1/2: the first feature is drawn given the second. *)
Example C93_ex : forall EL, leaf_expectation EL -> exists E s, accepted ex1_g ex1_o E /\
  expect EL (cond_sample E s (complete (point 1 2 [0; 1]%nat) [0%nat])) (fun x => if rows_are 1 1 2 (fun _ c f => nth (c * 2 + f) [1; 1]%nat 0%nat) x then 1 else 0) = sigm 3.
Proof.
  intros EL HEL. destruct ex1 as (E & A & EF & EC & EK). exists E, (selfcond 3 1 (e_L E) (e_R E)). split; [exact A|]. pose proof (accepted_ok _ _ E A) as HE.
  set (s := selfcond 3 1 (e_L E) (e_R E)).
  assert (Hs: cb_ok s 1) by (apply selfcond_ok; lia). assert (Hf: cb_fits E s) by (split; cbn; auto).
  assert (Hd: filled E s 1 (point 1 2 [0; 1]%nat) (fun _ _ f => nth f [0; 1]%nat 0%nat)).
  { split; [rewrite EF, EC; right; left; reflexivity|]. rewrite EF, EC. intros n c f Hn Hc Hf'. assert (c = 0)%nat by lia. subst c. split; [reflexivity|].
    cbn [cb_total s selfcond]. destruct f as [|[|]]; cbn; lia. }
  assert (B: forall t, bpmf 1 t 1 = sigm t) by (intros; unfold bpmf, Binomial.C; change (1 - 0)%nat with 1%nat; change (1 - 1)%nat with 0%nat; change (fact 1) with 1%nat; change (fact 0) with 1%nat; cbn [pow INR]; field).
  pose proof (C93_conditional ex1_g ex1_o E s 1 A eq_refl Hs Hf 1 (point 1 2 [0; 1]%nat) (fun _ _ f => nth f [0; 1]%nat 0%nat) [0%nat]) as X.
  rewrite EC, EF in X. rewrite X with (xs := fun _ c f : nat => nth (c * 2 + f) [1; 1]%nat 0%nat); clear X; auto.
  - rewrite rprod_S, rprod_0. change (rows 1 1 2 _) with (point 1 2 [1; 1]%nat).
    pose proof (C92_marginal ex1_g ex1_o E s 1 [0; 1]%nat [0%nat] 0 A Hs Hf ltac:(lia)) as X. rewrite EC, EF in X. rewrite X; clear X.
    + unfold sum_points. cbn [cb_total s selfcond]. change (filter _ _) with [[0; 1]; [1; 1]]%nat. cbn [lsum]. unfold s.
      rewrite !(selfcond_lik _ _ E 3 1 0 _ A EC EF) by (try lia; cbn; auto). cbn [nth Nat.eqb]. pose proof (bpmf_sum 1 3) as S1. rewrite !rsum_S, rsum_0 in S1.
      rewrite !B, sigm_0. rewrite B in S1. replace (bpmf 1 3 0) with (1 - sigm 3) by lra. field; lra.
    + change (1 * 2)%nat with 2%nat. cbn. auto.
    + intros f [<-|[]]. lia.
    + intros f [<-|[]] [H|[]]. lia.
  - intros f [<-|[]]. lia.
  - apply ex1_consistent.
  - intros n c f Hn Hc Hf'. assert (c = 0)%nat by lia. subst c. change (cb_total s) with 1%nat. assert (f = 0 \/ f = 1)%nat as [-> | ->] by lia; apply le_n.
  - intros f [<-|[]] [H|[]]. lia.
  - intros n c f Hn Hc Hf' Hi. assert (c = 0)%nat by lia. subst c. assert (f = 0 \/ f = 1)%nat as [-> | ->] by lia; [exfalso; apply Hi; left; reflexivity|reflexivity].
Qed.
Example C93_ex_overlap : forall EL, leaf_expectation EL -> exists E s, accepted ex1_g ex1_o E /\
  let p := clik E s (point 1 2 [1; 1]%nat) None 0 0 in
  expect EL (cond_sample E s (complete (point 1 2 [1; 0]%nat) [1%nat])) (fun x => if rows_are 1 1 2 (fun _ _ _ => 1%nat) x then 1 else 0) <>
  p / (clik E s (point 1 2 [1; 0]%nat) None 0 0 + p).
Proof.
  intros EL HEL. destruct ex1 as (E & A & EF & EC & EK). eexists E, _. split; [exact A|].
  destruct (C93_overlap_refuted ex1_g ex1_o E 3 EL A eq_refl ex1_consistent HEL EC EF EK ltac:(lra)) as [H1 H2]. cbv zeta. rewrite H1. intros H. exact (H2 (eq_sym H)).
Qed.
Example C93_ex_bottom_up : exists E, accepted ex_bu_g ex_bu_o E /\ g_struct ex_bu_g = SBottomUp.
Proof. destruct ex_bu as (E & A & _). exists E. auto. Qed.
(** Evidence with a missing value for the network above. *)
Example C93_ex_missing : exists E s, accepted ex1_g ex1_o E /\ cb_fits E s /\
  forall supp r, outcome supp (cond_sample E s (complete (mkT [1; 1; 2]%nat (fun idx => if (nth 2 idx 0 =? 0)%nat then None else Some 1%nat)) [0%nat])) r -> exists e, r = Err e.
Proof.
  destruct ex1 as (E & A & EF & EC & EK). exists E, (selfcond 3 1 (e_L E) (e_R E)). split; [exact A|]. split; [split; cbn; auto|]. intros supp r.
  eapply (C93_missing_refuted ex1_g ex1_o E _ _ 1 _ 0 0 0 supp r A); [split; cbn; auto|reflexivity|rewrite EC, EF; right; left; reflexivity|lia|lia|lia|reflexivity].
Qed.
(** Three classes *)
Definition ex3_g : config := plain 2 1 3 2 1 3 1 0 TEinsum STopDown.
Lemma ex3_oracle : oracle_ok ex3_g ex1_o.
Proof.
  apply choices_ok.
  - cbn. perms.
  - intros r Hr. unfold perm_len, plain. cbn [g_struct g_R g_F]. rewrite !nval_nat. cbn [Nat.eqb]. perms.
Qed.
Example C93_ex_prior : exists E s, accepted ex3_g ex1_o E /\ g_struct ex3_g = STopDown /\ consistent ex3_g /\ cb_ok s 1 /\ cb_fits E s /\ (1 < e_K E)%nat /\
  filled E s 1 (point 1 2 [0; 1]%nat) (fun _ _ f => nth f [0; 1]%nat 0%nat) /\ forall f, In f [0%nat] -> (f < e_F E)%nat /\ ~ In f (cb_idxs s).
Proof.
  destruct (build_succeeds ex3_g ex1_o) as (E & HE).
  - apply plain_valid; try lia; try lra; try congruence; simpl; lia.
  - reflexivity.
  - apply ex3_oracle.
  - exists 0%R. split; [constructor|lra].
  - cbn [ex3_g plain g_depth zval]. lia.
  - discriminate.
  - assert (A: accepted ex3_g ex1_o E) by (split; [reflexivity|apply ex3_oracle|exact HE]).
    destruct (build_inv ex3_g ex1_o E eq_refl ex3_oracle HE) as (_ & EF & EC & ER & EK).
    cbn in EF, EC, EK. rewrite ?nval_nat in EF, EC, EK.
    exists E, (selfcond 3 1 (e_L E) (e_R E)). split; [exact A|]. split; [reflexivity|].
    split; [unfold consistent; cbn [ex3_g plain g_struct g_R g_depth g_F]; rewrite !nval_nat; cbn; auto|]. split; [apply selfcond_ok; lia|]. split; [split; cbn; auto|].
    split; [lia|]. split.
    + split; [rewrite EF, EC; right; left; reflexivity|]. rewrite EF, EC. intros n c f Hn Hc Hf'. assert (c = 0)%nat by lia. subst c. split; [reflexivity|].
      cbn [cb_total selfcond]. destruct f as [|[|]]; cbn; lia.
    + intros f [<-|[]]. split; [lia|]. intros [H|[]]. lia.
Qed.
