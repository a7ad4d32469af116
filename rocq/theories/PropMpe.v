(** C29, guarantees: how probable the completion returned by mpe() is, compared with every other completion. *)
From Coq Require Import List Arith Lia Bool ZArith Reals Lra Permutation.
Import ListNotations.
From Verif Require Import Base RSum Num Tensor Prob Layers Circuit Net RefFwd Leaf Perm RefLeaf Einet RefNet RefEinet RefEinetS RefMpe RefApprox
  Build RefBuild Spec RefSpec RefMore RefPack Ex ExBad.
Local Open Scope R_scope.
Local Arguments Nat.pow : simpl never.
Local Arguments Nat.mul : simpl never.

(** The value the leaves return for MPE is in the support and no other value is more probable (C30). *)
Definition mode_max {V} (lf : bleaf V) : Prop := exists md, lf_mode lf = Some md /\
  forall c f l r, (c < lf_C lf)%nat -> (f < lf_F lf)%nat -> (l < lf_L lf)%nat -> (r < lf_R lf)%nat ->
    lf_supp lf (md [c; f; l; r]) = true /\
    forall v, lf_supp lf v = true -> toR (lf_logp lf [c; f; l; r] v) <= toR (lf_logp lf [c; f; l; r] (md [c; f; l; r])).
(** Row [n'] of [x] is a completion of row [n] of the evidence. *)
Definition fills {V} (E : einet V) (e : tensor (option V)) (ms : option (list nat)) (n : nat) (x : tensor (option V)) (n' : nat) : Prop :=
  forall c f, (c < e_C E)%nat -> (f < e_F E)%nat ->
    exists v, entry x n' c f = Some v /\ forall w, observed e ms n c f = Some w -> v = w.
(** Number of missing entries of row [n]. *)
Definition gaps {V} (E : einet V) (e : tensor (option V)) (ms : option (list nat)) (n : nat) : nat :=
  length (flat_map (fun c => filter (fun f => match observed e ms n c f with None => true | Some _ => false end) (seq 0 (e_F E))) (seq 0 (e_C E))).
(** The class whose logit of the class sampling root is the largest. *)
Definition top_class {V} (E : einet V) (o : oracle V) (y : nat) : Prop :=
  (y < e_K E)%nat /\ ((1 < e_K E)%nat -> forall y', (y' < e_K E)%nat -> toR (o_root o [0; y'; 0; 0]%nat) <= toR (o_root o [0; y; 0; 0]%nat)).

Lemma lprod_gap {A} (b : R) (g : A -> bool) l : lprod (fun a => if g a then b else 1) l = b ^ length (filter g l).
Proof. induction l as [|a l IH]; cbn [lprod filter]; auto. rewrite IH. destruct (g a); cbn [length pow]; ring. Qed.
Lemma gap_prod (b : R) C F (g : nat -> nat -> bool) :
  rprod C (fun c => rprod F (fun f => if g c f then b else 1)) = b ^ length (flat_map (fun c => filter (g c) (seq 0 F)) (seq 0 C)).
Proof.
  unfold rprod. generalize (seq 0 C). intros l. induction l as [|c l IH]; cbn [lprod flat_map]; auto.
  rewrite app_length, pow_add, IH, lprod_gap. reflexivity.
Qed.

Lemma top_of_weights {V} g o (E : einet V) a n y : accepted g o E -> a_class a = CNone -> a_tsum a = 1 -> (y < e_K E)%nat ->
  (forall y', (y' < e_K E)%nat -> cweight E a n y' <= cweight E a n y) -> top_class E o y.
Proof.
  intros HA Hc HT Hy H. split; auto. intros HK y' Hy'. specialize (H y' Hy'). unfold cweight in H.
  destruct (Nat.ltb_spec 1 (e_K E)); [|lia]. rewrite Hc, HT in H. destruct (root_logits g o E HA HK) as (s & Es & Hs). unfold wroot in H. rewrite Es in H.
  unfold wsoft, rsoftmax in H. rewrite !Hs in H.
  set (Z := rsum (e_K E) _) in H. assert (PZ: 0 < Z) by (apply rsum_pos; [lia|]; intros; apply exp_pos).
  apply (Rmult_le_compat_r Z) in H; [|lra]. unfold Rdiv in H. rewrite !Rmult_assoc, Rinv_l, !Rmult_1_r in H by lra. rewrite Rinv_1, !Rmult_1_r in H.
  destruct (Rle_dec (toR (o_root o [0; y'; 0; 0]%nat)) (toR (o_root o [0; y; 0; 0]%nat))) as [|C]; auto.
  exfalso. apply Rnot_le_lt in C. apply exp_increasing in C. lra.
Qed.

Section G.
Variables (g : config) (o : oracle nat) (E : einet nat) (B : nat).
Hypothesis HA : accepted g o E.
Hypothesis HB : discrete_leaf B (leafE E).
Let HE := accepted_ok g o E HA.
Variable md : list nat -> nat.
Hypothesis Hmax : forall c f l r, (c < lf_C (leafE E))%nat -> (f < lf_F (leafE E))%nat -> (l < lf_L (leafE E))%nat -> (r < lf_R (leafE E))%nat ->
    lf_supp (leafE E) (md [c; f; l; r]) = true /\
    forall v, lf_supp (leafE E) v = true -> toR (lf_logp (leafE E) [c; f; l; r] v) <= toR (lf_logp (leafE E) [c; f; l; r] (md [c; f; l; r])).

Lemma md_supp c f l r : (c < e_C E)%nat -> (f < e_F E)%nat -> (l < e_L E)%nat -> (r < e_R E)%nat -> (md [c; f; l; r] < B)%nat.
Proof.
  intros Hc Hf Hl Hr. unfold leafE in Hmax. rewrite (eo_lC E HE), (eo_lF E HE), (eo_lL E HE), (eo_lR E HE) in Hmax.
  destruct (Hmax c f l r Hc Hf Hl Hr) as [S _]. fold (leafE E) in S. rewrite (dl_supp B _ HB) in S. apply Nat.ltb_lt; auto.
Qed.
Lemma md_share c f l r : (c < e_C E)%nat -> (f < e_F E)%nat -> (l < e_L E)%nat -> (r < e_R E)%nat ->
  1 <= INR B * pdf (leafE E) c f l r (md [c; f; l; r]).
Proof.
  intros Hc Hf Hl Hr. apply (max_share B (pdf (leafE E) c f l r)); [apply (pdf_sum E HE B HB); auto|].
  intros v Hv. unfold leafE in Hmax. rewrite (eo_lC E HE), (eo_lF E HE), (eo_lL E HE), (eo_lR E HE) in Hmax.
  destruct (Hmax c f l r Hc Hf Hl Hr) as [_ S]. fold (leafE E) in S. unfold pdf. apply RIneq.Rle_trans with (exp (toR (lf_logp (leafE E) [c; f; l; r] (md [c; f; l; r])))); [|lra].
  specialize (S v ltac:(rewrite (dl_supp B _ HB); apply Nat.ltb_lt; auto)). destruct S as [S|S]; [left; apply exp_increasing; auto|right; rewrite S; reflexivity].
Qed.
Lemma pdf_le_1 c f l r v : (c < e_C E)%nat -> (f < e_F E)%nat -> (l < e_L E)%nat -> (r < e_R E)%nat -> (v < B)%nat -> pdf (leafE E) c f l r v <= 1.
Proof.
  intros Hc Hf Hl Hr Hv. rewrite <- (pdf_sum E HE B HB c f l r) by auto. apply (rsum_one_term B v (pdf (leafE E) c f l r) Hv). intros; left; apply exp_pos.
Qed.

Lemma completion_le z x y : (y < e_K E)%nat ->
  (forall c f, (c < e_C E)%nat -> (f < e_F E)%nat -> exists v, x c f = Some v /\ (v < B)%nat /\ forall w, z c f = Some w -> v = w) ->
  neteval (fnet E) (lval (pdf (leafE E)) x) y <= neteval (fnet E) (lval (pdf (leafE E)) z) y.
Proof.
  intros Hy H. apply neteval_mono; auto; [apply fnet_wf; auto|]. intros c f l r Hc Hf Hl Hr. destruct (H c f Hc Hf) as (v & Ev & Hv & Hw).
  unfold lval. rewrite Ev. split; [left; apply exp_pos|]. destruct (z c f) as [w|]; [rewrite (Hw w eq_refl); lra|]. apply pdf_le_1; auto.
Qed.

Lemma row_bound a n z x : a_class a = CNone -> a_tsum a = 1 -> mpe_row E md z n a x ->
  exists y, top_class E o y /\
  (forall c f, (c < e_C E)%nat -> (f < e_F E)%nat -> exists v, x c f = Some v /\ (z c f = None -> (v < B)%nat) /\ forall w, z c f = Some w -> v = w) /\
  neteval (fnet E) (lval (pdf (leafE E)) z) y <=
  INR (picks E * B ^ length (flat_map (fun c => filter (fun f => match z c f with None => true | Some _ => false end) (seq 0 (e_F E))) (seq 0 (e_C E)))) *
  neteval (fnet E) (lval (pdf (leafE E)) x) y.
Proof.
  intros Hcl HT (y & out & r & Hy & Hr & Hout & Hw & Hx & Hq). exists y. split; [eapply top_of_weights; eauto|].
  assert (HO: forall f, (f < e_F E)%nat -> (out (fgrp E r f) < e_L E)%nat) by (intros; apply Hout; apply fgrp_lt; auto).
  split.
  - intros c f Hc Hf. rewrite Hx by auto. unfold fillin. destruct (z c f) as [w|]; eexists; split; try reflexivity; split; try discriminate.
    + intros w' E'. inversion E'; auto. + intros _. apply md_supp; auto.
  - set (p := pdf (leafE E)). rewrite mult_INR, pow_INR.
    specialize (Hq (lval p x) ltac:(intros; left; apply lval_pos)). fold (leafE E) in Hq. fold p in Hq.
    set (P := rprod (e_C E) _) in Hq.
    set (gp := fun c f => match z c f with None => true | Some _ => false end).
    assert (PB: 1 <= INR B ^ length (flat_map (fun c => filter (gp c) (seq 0 (e_F E))) (seq 0 (e_C E))) * P).
    { rewrite <- gap_prod. unfold P. rewrite <- rprod_mult. apply RIneq.Rle_trans with (rprod (e_C E) (fun _ => 1)); [rewrite rprod_one; lra|]. apply rprod_le. intros c Hc. split; [lra|].
      rewrite <- rprod_mult. apply RIneq.Rle_trans with (rprod (e_F E) (fun _ => 1)); [rewrite rprod_one; lra|]. apply rprod_le. intros f Hf. split; [lra|].
      unfold lval. rewrite Hx by auto. unfold fillin, gp. destruct (z c f) as [w|] eqn:Ez.
      - assert (0 < p c f (out (fgrp E r f)) r w) by apply exp_pos. right. field. lra.
      - unfold Rdiv. rewrite Rinv_1, Rmult_1_r. apply md_share; auto. }
    assert (PN: 0 < neteval (fnet E) (lval p z) y).
    { apply neteval_pos; auto; [apply fnet_wf; auto|]. intros; apply lval_pos. }
    assert (Pb: 0 <= INR B ^ length (flat_map (fun c => filter (gp c) (seq 0 (e_F E))) (seq 0 (e_C E)))) by (apply pow_le, pos_INR).
    change (neteval (fnet E) (lval p z) y <= INR (picks E) * INR B ^ length (flat_map (fun c => filter (gp c) (seq 0 (e_F E))) (seq 0 (e_C E))) * neteval (fnet E) (lval p x) y).
    pose proof (Rmult_le_compat_l _ _ _ Pb Hq) as A1. pose proof (Rmult_le_compat_r _ _ _ (Rlt_le _ _ PN) PB) as A2. lra.
Qed.
End G.

(** With discrete leaves: the likelihood of the completion returned, in the class with the largest sampling logit, is at least
    that of every other completion - and even that of the evidence, the sum over all completions - divided by the number of
    ways to pick one product at every sum node and one value at every missing entry. *)
Theorem C29_guarantee_partial : forall g o (E : einet nat) B N e ms,
  accepted g o E -> consistent g -> discrete_leaf B (leafE E) -> lf_ctx (leafE E) = true -> mode_max (leafE E) -> evidence E N e ms -> (0 < N)%nat ->
  exists t, mpe E (Some e) ms = Ret t /\ batch E N t /\
  forall n, (n < N)%nat -> fills E e ms n t n /\
  exists y, top_class E o y /\
    lik E e ms n y <= INR (picks E * B ^ gaps E e ms n) * lik E t None n y /\
    forall N' x n', batch E N' x -> (n' < N')%nat -> fills E e ms n x n' ->
      lik E x None n' y <= INR (picks E * B ^ gaps E e ms n) * lik E t None n y.
Proof.
  intros g o E B N e ms HA Hco HB Hctx (md & Hmd & Hmx) He HN. pose proof (accepted_ok g o E HA) as HE.
  set (a := mkArgs None CNone (Some e) true false 1 ms). assert (EN: num_samples a = N) by (cbn; apply (batch_size E); apply He).
  pose proof (evidence_input E N e ms He) as Hin.
  destruct (mpe_evidence E HE a e eq_refl eq_refl eq_refl eq_refl) with (md := md) as (t & Et & St & X).
  - unfold check_args. cbn. destruct (e_K E =? 1)%nat; reflexivity.
  - rewrite EN. exact Hin.
  - rewrite EN; auto.
  - exact Hctx.
  - exact Hmd.
  - apply (agree_groups g o E HA Hco).
  - rewrite EN in X. exists t. split; [exact Et|].
    assert (Hb: batch E N t).
    { destruct He as [[W S] _]. split; [rewrite St; exact W|]. intros n c f v Hn Hc Hf Hv.
      destruct (row_bound g o E B HA HB md Hmx a n _ _ eq_refl eq_refl (X n Hn)) as (y & _ & F & _). destruct (F c f Hc Hf) as (v' & Ev & F1 & F2).
      rewrite Ev in Hv. inversion Hv; subst v'. cbn [a a_ms] in F1, F2. destruct (row e ms n c f) as [w|] eqn:Er.
      - rewrite (F2 w eq_refl). unfold row in Er. destruct (in_ms ms f); [discriminate|]. eapply S; eauto.
      - rewrite (dl_supp B _ HB). apply Nat.ltb_lt. auto. }
    split; auto. intros n Hn. destruct (row_bound g o E B HA HB md Hmx a n _ _ eq_refl eq_refl (X n Hn)) as (y & Ty & F & Bd). cbn [a a_ms] in F, Bd.
    split. { intros c f Hc Hf. destruct (F c f Hc Hf) as (v & Ev & _ & Fw). exists v. split; auto. rewrite observed_row. exact Fw. }
    exists y. split; auto. pose proof (proj1 Ty) as Hy.
    unfold gaps. rewrite observed_row. rewrite !(lik_eval E HE N t None n y (batch_input E N t Hb) Hn Hy).
    rewrite (lik_eval E HE N e ms n y Hin Hn Hy). change (row t None n) with (fun c f => entry t n c f).
    split; [exact Bd|]. intros N' x n' Hx Hn' Hf. apply Rle_trans with (2 := Bd).
    rewrite (lik_eval E HE N' x None n' y (batch_input E N' x Hx) Hn' Hy).
    apply (completion_le g o E B HA HB); auto. intros c f Hc Hf'. destruct (Hf c f Hc Hf') as (v & Ev & Fw). rewrite observed_row in Fw. exists v.
    split; [exact Ev|]. split; auto. destruct Hx as [_ S]. specialize (S n' c f v Hn' Hc Hf' Ev). rewrite (dl_supp B _ HB) in S. apply Nat.ltb_lt; auto.
Qed.
Print Assumptions C29_guarantee_partial.
(** Without evidence: the returned point has at least the share of probability that its choices leave. *)
Theorem C29_guarantee_free_partial : forall g o (E : einet nat) B,
  accepted g o E -> consistent g -> discrete_leaf B (leafE E) -> lf_ctx (leafE E) = true -> mode_max (leafE E) ->
  exists t, mpe E None None = Ret t /\ batch E 1 t /\
  exists y, top_class E o y /\ 1 <= INR (picks E * B ^ (e_C E * e_F E)) * lik E t None 0 y /\
    forall N' x n', batch E N' x -> (n' < N')%nat -> (forall c f, (c < e_C E)%nat -> (f < e_F E)%nat -> entry x n' c f <> None) ->
      lik E x None n' y <= INR (picks E * B ^ (e_C E * e_F E)) * lik E t None 0 y.
Proof.
  intros g o E B HA Hco HB Hctx (md & Hmd & Hmx). pose proof (accepted_ok g o E HA) as HE.
  set (a := mkArgs (V := nat) None CNone None true false 1 None).
  destruct (mpe_free E HE a eq_refl eq_refl eq_refl eq_refl) with (md := md) as (t & Et & St & X).
  - unfold check_args. cbn. destruct (e_K E =? 1)%nat; reflexivity.
  - cbn. lia.
  - exact Hctx.
  - exact Hmd.
  - apply (agree_groups g o E HA Hco).
  - cbn [a num_samples a_ev a_n] in X, St. exists t. split; [exact Et|]. specialize (X 0%nat ltac:(lia)).
    destruct (row_bound g o E B HA HB md Hmx a 0 _ _ eq_refl eq_refl X) as (y & Ty & F & Bd).
    assert (Hb: batch E 1 t).
    { split; [rewrite St; right; left; reflexivity|]. intros n c f v Hn Hc Hf Hv. assert (n = 0)%nat by lia. subst n.
      destruct (F c f Hc Hf) as (v' & Ev & F1 & _). rewrite Ev in Hv. inversion Hv; subst v'. rewrite (dl_supp B _ HB). apply Nat.ltb_lt. auto. }
    split; auto. exists y. split; auto. pose proof (proj1 Ty) as Hy.
    rewrite (lik_eval E HE 1 t None 0 y (batch_input E 1 t Hb) ltac:(lia) Hy). change (row t None 0) with (fun c f => entry t 0 c f).
    assert (G: length (flat_map (fun _ : nat => filter (fun _ : nat => true) (seq 0 (e_F E))) (seq 0 (e_C E))) = (e_C E * e_F E)%nat).
    { assert (FT: forall l : list nat, filter (fun _ => true) l = l) by (induction l as [|q l IH]; cbn; congruence).
      rewrite FT. rewrite <- (seq_length (e_C E) 0) at 2. generalize (seq 0 (e_C E)). induction l as [|q l IH]; cbn [flat_map length]; auto.
      rewrite app_length, IH, seq_length. lia. }
    rewrite G in Bd. rewrite neteval_one in Bd; [|apply fnet_wf; auto|auto|intros c f l r _ _ _ _; reflexivity].
    split; [exact Bd|]. intros N' x n' Hx Hn' Hf. apply Rle_trans with (2 := Bd).
    rewrite (lik_eval E HE N' x None n' y (batch_input E N' x Hx) Hn' Hy).
    rewrite <- (neteval_one (fnet E) (lval (pdf (leafE E)) (fun _ _ => None)) y); [|apply fnet_wf; auto|auto|intros c f l r _ _ _ _; reflexivity].
    apply (completion_le g o E B HA HB); auto. intros c f Hc Hf'. specialize (Hf c f Hc Hf'). destruct (entry x n' c f) as [v|] eqn:Ev; [|congruence]. exists v.
    split; [exact Ev|]. split; [|discriminate]. destruct Hx as [_ S]. specialize (S n' c f v Hn' Hc Hf' Ev). rewrite (dl_supp B _ HB) in S. apply Nat.ltb_lt; auto.
Qed.
Print Assumptions C29_guarantee_free_partial.

(** With one leaf component per feature and one repetition the network is a product of leaves, and mpe() is optimal, for any
    leaf class, any layers and every class. *)
Theorem C29_one_component_partial : forall V g o (E : einet V) N e ms,
  accepted g o E -> lf_ctx (leafE E) = true -> mode_max (leafE E) -> e_L E = 1%nat -> e_R E = 1%nat -> evidence E N e ms -> (0 < N)%nat ->
  exists t, mpe E (Some e) ms = Ret t /\ batch E N t /\
  forall n, (n < N)%nat -> fills E e ms n t n /\
  forall N' x n' k, batch E N' x -> (n' < N')%nat -> fills E e ms n x n' -> (k < e_K E)%nat -> lik E x None n' k <= lik E t None n k.
Proof.
  intros V g o E N e ms HA Hctx (md & Hmd & Hmx) HL HR He HN. pose proof (accepted_ok g o E HA) as HE.
  set (a := mkArgs None CNone (Some e) true false 1 ms). assert (EN: num_samples a = N) by (cbn; apply (batch_size E); apply He).
  pose proof (evidence_input E N e ms He) as Hin.
  destruct (sample_evidence_out E HE a e eq_refl) as [O X].
  - unfold check_args. cbn. destruct (e_K E =? 1)%nat; reflexivity.
  - rewrite EN. exact Hin.
  - rewrite EN; auto.
  - cbn. lra.
  - exact Hctx.
  - intros _. unfold leafE in Hmd. rewrite Hmd. discriminate.
  - destruct (X eq_refl) as (t & Et). exists t. split; [exact Et|].
    destruct (O (fun _ _ => True) (Ok t)) as (t' & Z & St & F); [rewrite Et; constructor|]. inversion Z; subst t'. rewrite EN in F.
    unfold leafE in Hmx. rewrite (eo_lC E HE), (eo_lF E HE), (eo_lL E HE), (eo_lR E HE), HL, HR in Hmx. fold (leafE E) in Hmx.
    assert (F': forall n c f, (n < N)%nat -> (c < e_C E)%nat -> (f < e_F E)%nat ->
       entry t n c f = match row e ms n c f with Some v => Some v | None => Some (md [c; f; 0; 0]%nat) end).
    { intros n c f Hn Hc Hf. specialize (F n c f Hn Hc Hf). cbn [a a_ms] in F. destruct (row e ms n c f); auto.
      destruct F as (w & -> & l & r & Hl & Hr & FF). cbn [a a_mpe orb] in FF. destruct FF as (md' & Em & ->).
      unfold leafE in Hmd. rewrite Hmd in Em. inversion Em; subst md'. rewrite HL in Hl. rewrite HR in Hr.
      replace l with 0%nat by lia. replace r with 0%nat by lia. reflexivity. }
    assert (Hb: batch E N t).
    { destruct He as [[W S] _]. split; [rewrite St; exact W|]. intros n c f v Hn Hc Hf Hv. rewrite F' in Hv by auto.
      destruct (row e ms n c f) as [w|] eqn:Er; inversion Hv; subst.
      - unfold row in Er. destruct (in_ms ms f); [discriminate|]. eapply S; eauto.
      - apply (Hmx c f 0%nat 0%nat); auto. }
    split; auto. intros n Hn. split.
    { intros c f Hc Hf. rewrite F' by auto. rewrite observed_row. destruct (row e ms n c f) as [w|]; eexists; split; try reflexivity; [|discriminate].
      intros w' Ew. inversion Ew; auto. }
    intros N' x n' k Hx Hn' Hf Hk.
    rewrite (lik_eval E HE N' x None n' k (batch_input E N' x Hx) Hn' Hk), (lik_eval E HE N t None n k (batch_input E N t Hb) Hn Hk).
    apply neteval_mono; auto; [apply fnet_wf; auto|]. cbn [fnet net_with nC nF nL nR]. rewrite HL, HR.
    intros c f l r Hc Hf' Hl Hr. replace l with 0%nat by lia. replace r with 0%nat by lia. split; [left; apply lval_pos|].
    destruct (Hf c f Hc Hf') as (v & Ev & Fw). rewrite observed_row in Fw. unfold lval. change (row x None n' c f) with (entry x n' c f). change (row t None n c f) with (entry t n c f).
    rewrite Ev, F' by auto. destruct (row e ms n c f) as [w|]; [rewrite (Fw w eq_refl); lra|].
    destruct (Hmx c f 0%nat 0%nat Hc Hf' ltac:(lia) ltac:(lia)) as [_ M]. specialize (M v). unfold pdf.
    destruct Hx as [_ S]. specialize (M (S n' c f v Hn' Hc Hf' Ev)). destruct M as [M|M]; [left; apply exp_increasing; auto|right; rewrite M; reflexivity].
Qed.
Print Assumptions C29_one_component_partial.

(** * Instances *)
Lemma coin_mode_max p F C L R : (forall key, 0 < p key < 1) -> mode_max (coin p F C L R).
Proof.
  intros Hp. eexists. split; [reflexivity|]. intros c f l r _ _ _ _. cbn [coin lf_supp lf_logp toR]. specialize (Hp [c; f; l; r]).
  assert (L': forall x y, 0 < x -> x <= y -> ln x <= ln y) by (intros x y Hx [Hy|Hy]; [left; apply ln_increasing; auto|rewrite Hy; lra]).
  destruct (Rle_dec (1/2) (p [c; f; l; r])) as [G|G]; cbn [Nat.eqb]; split; try reflexivity; intros v Hv; destruct (v =? 0)%nat; apply L'; lra.
Qed.
(** The network of the counterexample C29_optimal_refuted: four pairs at one node, two values for each of the two features.
    Its result has 23/80, the best point has 37/80 < 16 * 23/80. *)
Example C29_guarantee_ex : exists g o (E : einet nat), accepted g o E /\ consistent g /\ discrete_leaf 2 (leafE E) /\ mode_max (leafE E) /\
  (picks E * 2 ^ (e_C E * e_F E) = 16)%nat /\
  exists t, mpe E None None = Ret t /\ batch E 1 t /\ 1 / 16 <= lik E t None 0 0 /\
    forall x, (forall f, (f < 2)%nat -> (x 0 f < 2)%nat) -> lik E (one_row 1 2 x) None 0 0 <= 16 * lik E t None 0 0.
Proof.
  pose proof bad4_accepted as HA. assert (HB: discrete_leaf 2 (leafE bad4)) by exact (coin_discrete _ 2 1 2 1 bad4_p_ok).
  assert (HM: mode_max (leafE bad4)) by exact (coin_mode_max _ 2 1 2 1 bad4_p_ok).
  assert (P: (picks bad4 * 2 ^ (e_C bad4 * e_F bad4) = 16)%nat) by reflexivity.
  exists bad4_g, bad4_o, bad4. split; auto. split; [cbn; right; reflexivity|]. split; auto. split; auto. split; auto.
  destruct (C29_guarantee_free_partial bad4_g bad4_o bad4 2 HA ltac:(cbn; right; reflexivity) HB eq_refl HM) as (t & Et & Hb & y & Ty & B1 & B2).
  rewrite P in B1, B2. assert (y = 0)%nat by (destruct Ty as [Ty _]; cbn in Ty; lia). subst y.
  exists t. split; auto. split; auto. replace (INR 16) with 16 in B1, B2 by (simpl; ring). split; [lra|].
  intros x Hx. apply (B2 1%nat); [|lia|].
  - split; [right; left; reflexivity|]. intros n c f v Hn Hc Hf Hv. cbn in Hv. inversion Hv; subst v. cbn in Hc, Hf. replace c with 0%nat by lia.
    change (lf_supp (leafE bad4) (x 0 f)%nat) with (x 0 f <? 2)%nat. apply Nat.ltb_lt. auto.
  - intros c f Hc Hf. cbn. discriminate.
Qed.
(** A network with three classes over five features and two channels, with one component per leaf. *)
Definition ex_one_g : config := plain 5 2 3 1 1 3 2 0 TEinsum STopDown.
Definition ex_one_perm (_ : nat) : list nat := [4; 2; 7; 0; 6; 3; 1; 5]%nat.
Definition ex_one_o : oracle nat := choices [1; 2; 1; 1]%nat ex_one_perm third.
Lemma ex_one : exists E, accepted ex_one_g ex_one_o E /\ leafE E = coin third 5 2 1 1 /\ e_F E = 5%nat /\ e_C E = 2%nat /\ e_R E = 1%nat /\ e_K E = 3%nat /\ e_L E = 1%nat.
Proof.
  assert (HO: oracle_ok ex_one_g ex_one_o).
  { apply choices_ok.
    - cbn. change (2 ^ 2)%nat with 4%nat. vm_compute (group_sizes 5 4). perms.
    - intros r Hr. unfold perm_len, plain. cbn [g_struct g_R g_F]. rewrite !nval_nat. cbn [Nat.eqb]. unfold ex_one_perm. perms. }
  destruct (build_succeeds ex_one_g ex_one_o) as (E & HE).
  - apply plain_valid; try lia; try lra; try congruence. change (2 ^ 2)%nat with 4%nat; lia.
  - reflexivity.
  - exact HO.
  - exists 0%R. split; [constructor|lra].
  - cbn [ex_one_g plain g_depth zval]. lia.
  - discriminate.
  - exists E. assert (A: accepted ex_one_g ex_one_o E) by (split; [reflexivity|exact HO|exact HE]).
    destruct (build_inv ex_one_g ex_one_o E eq_refl HO HE) as (HK & EF & EC & ER & EK).
    split; [exact A|]. cbn [ex_one_g plain g_F g_C g_R g_K] in *. rewrite nval_nat in *.
    assert (L: leafE E = coin third 5 2 1 1).
    { unfold build in HE. apply bind_ok in HE as ([] & _ & HE). cbn [ex_one_g plain g_struct] in HE. unfold build_top_down in HE.
      apply bind_ok in HE as (? & _ & HE). apply bind_ok in HE as (? & _ & HE). apply bind_ok in HE as (? & _ & HE).
      apply bind_ok in HE as (lf & Hl & HE). apply bind_ok in HE as (? & _ & HE). apply bind_ok in HE as (? & _ & HE).
      inversion HE. unfold leafE. cbn [e_leaf]. unfold build_input in Hl. cbn [ex_one_o choices o_leaf] in Hl.
      unfold ex_one_g, plain in Hl. cbn [g_F g_C g_L g_R] in Hl. rewrite !nval_nat in Hl. cbn [bind Nat.eqb] in Hl. inversion Hl. reflexivity. }
    split; auto. repeat (split; [assumption|]). rewrite <- (eo_lL E HK). fold (leafE E). rewrite L. reflexivity.
Qed.
Example C29_one_component_ex : exists g o (E : einet nat), accepted g o E /\ e_F E = 5%nat /\ e_C E = 2%nat /\ e_K E = 3%nat /\
  exists e t, evidence E 1 e (Some [3; 1]%nat) /\ mpe E (Some e) (Some [3; 1]%nat) = Ret t /\
  forall x k, batch E 1 x -> fills E e (Some [3; 1]%nat) 0 x 0 -> (k < 3)%nat -> lik E x None 0 k <= lik E t None 0 k.
Proof.
  destruct ex_one as (E & HA & HL & HF & HC & HR & HK & HLL). exists ex_one_g, ex_one_o, E. do 4 (split; auto).
  set (e := one_row 2 5 (fun c f => if Nat.eqb c 0 then 0 else if Nat.leb f 2 then 1 else 0)%nat).
  assert (He: evidence E 1 e (Some [3; 1]%nat)).
  { split; [split|].
    - rewrite HC, HF. right; left; reflexivity.
    - intros n c f v Hn Hc Hf Hv. unfold e, one_row, entry in Hv. cbn [get nth] in Hv. inversion Hv; subst v. rewrite HL. cbn [coin lf_supp]. destruct (c =? 0)%nat; [reflexivity|]. destruct (f <=? 2)%nat; reflexivity.
    - split; [rewrite HF; intros f [<-|[<-|[]]]; lia|]. intros. cbn. discriminate. }
  destruct (C29_one_component_partial nat ex_one_g ex_one_o E 1 e (Some [3; 1]%nat) HA) as (t & Et & Hb & X); auto.
  - rewrite HL. reflexivity.
  - rewrite HL. apply coin_mode_max. apply third_ok.
  - exists e, t. split; auto. split; auto. intros x k Hx Hf Hk. destruct (X 0%nat ltac:(lia)) as [_ X']. apply (X' 1%nat); auto. lia.
Qed.
