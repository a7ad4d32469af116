(** C69: samples may be completed in steps. *)
From Coq Require Import List Arith Lia Bool ZArith Reals Lra.
Import ListNotations.
From Verif Require Import Base RSum Num Tensor Prob Layers Circuit Net RefFwd RefSample RefLaw Leaf Perm RefLeaf RefLeafS TypeChecks Einet RefNet RefEinet RefEinetS RefMpe Build RefBuild Spec RefSpec RefSpecS RefPack PropSample PropForward Ex ExBad.
Local Open Scope R_scope.
Local Arguments Nat.div : simpl never.
Local Arguments Nat.modulo : simpl never.
Local Arguments Nat.sub : simpl never.
Local Arguments Nat.mul : simpl never.
Local Arguments Nat.add : simpl never.

(** Draws from 0 .. B-1. *)
Lemma expect_ext_below B P {A} (m : M nat A) g h :
  (forall a, outcome (fun _ v => (v < B)%nat) m (Ok a) -> g a = h a) -> expect (EL_discrete B P) m g = expect (EL_discrete B P) m h.
Proof.
  induction m as [a|e|w k IH|key k IH]; cbn [expect]; intros H; auto.
  - apply H. constructor.
  - apply rsum_ext. intros i Hi. f_equal. apply IH. intros a Ha. apply H. econstructor; eauto.
  - unfold EL_discrete. apply rsum_ext. intros v Hv. f_equal. apply IH. intros a Ha. apply H. econstructor; eauto.
Qed.

Section Steps.
Variables (g : config) (o : oracle nat) (E : einet nat) (B : nat).
Hypothesis HA : accepted g o E.
Hypothesis Hco : consistent g.
Hypothesis HB : discrete_leaf B (leafE E).
Hypothesis Hctx : lf_ctx (leafE E) = true.
Let HE := accepted_ok g o E HA.
Let C := e_C E.
Let F := e_F E.
Let EL := EL_discrete B (leaf_draw (leafE E)).
(** The probability of a class. *)
Let w (y : nat) : R := if Nat.ltb 1 (e_K E) then wroot E 1 y else 1.

(** A batch without missing entries. *)
Definition full N (t : tensor (option nat)) : Prop :=
  wshape (shape t) N C F /\ forall n c f, (n < N)%nat -> (c < C)%nat -> (f < F)%nat -> exists v, entry t n c f = Some v /\ (v < B)%nat.
Definition off (S : list nat) (xs : nat -> nat -> nat -> nat) (n c f : nat) (v : option nat) : R :=
  if existsb (Nat.eqb f) S then 1 else eqv v (xs n c f).

Lemma full_input N t S : full N t -> (forall f, In f S -> (f < F)%nat) -> evidence E N t (Some S).
Proof.
  intros [Hw Hf] HS. split; [split; [exact Hw|]|].
  - intros n c f v Hn Hc Hf' Ev. destruct (Hf n c f Hn Hc Hf') as (u & Ew & Hv). rewrite (dl_supp B _ HB). apply Nat.ltb_lt. congruence.
  - split; [exact HS|]. intros n c f Hn Hc Hf' _. destruct (Hf n c f Hn Hc Hf') as (u & Ew & _). congruence.
Qed.
Lemma one_row_full (xs : nat -> nat -> nat -> nat) n : (forall c f, (c < C)%nat -> (f < F)%nat -> (xs n c f < B)%nat) -> full 1 (one_row C F (xs n)).
Proof. intros H. split; [right; left; reflexivity|]. intros m c f _ Hc Hf. exists (xs n c f). split; [reflexivity|auto]. Qed.

Lemma agrees_off N t S xs n : full N t -> (n < N)%nat ->
  (if agrees_with E (observed t (Some S) n) (xs n) then 1 else 0) = rprod C (fun c => rprod F (fun f => off S xs n c f (entry t n c f))).
Proof.
  intros [_ Hf] Hn. unfold agrees_with. rewrite forallb_rprod. apply rprod_ext. intros c Hc. rewrite forallb_rprod. apply rprod_ext. intros f Hf'.
  unfold observed, off. destruct (existsb (Nat.eqb f) S); [reflexivity|]. destruct (Hf n c f Hn Hc Hf') as (v & -> & _). reflexivity.
Qed.

(** The second step, as a function of what the first one returned. *)
Lemma second_step N t S xs : full N t -> (forall f, In f S -> (f < F)%nat) -> (0 < N)%nat -> in_support E B N xs ->
  Pr B (leafE E) (sample E (given t (Some S))) (rows_are N C F xs) =
  rprod N (fun n => rsum (e_K E) (fun y => w y * (lik E (one_row C F (xs n)) None 0 y / lik E (one_row C F (xs n)) (Some S) 0 y))) *
  rprod3 N C F (fun n c f => off S xs n c f (entry t n c f)).
Proof.
  intros Ht HS HN Hx. pose proof (full_input N t S Ht HS) as He. unfold C, F. rewrite (given_law g o E B HA Hco HB Hctx N t (Some S) xs He HN Hx). fold C F.
  unfold rprod3. rewrite <- rprod_mult. apply rprod_ext. intros n Hn. rewrite <- (agrees_off N t S xs n Ht Hn).
  rewrite <- rsum_scal_r. apply rsum_ext. intros y Hy. unfold cweight. cbn [given a_class a_tsum]. fold (w y).
  destruct (agrees_with E (observed t (Some S) n) (xs n)) eqn:Ea; [|ring]. rewrite agrees_with_iff in Ea.
  assert (H1: full 1 (one_row C F (xs n))) by (apply one_row_full; intros; apply Hx; auto).
  replace (lik E t (Some S) n y) with (lik E (one_row C F (xs n)) (Some S) 0 y); [ring|].
  rewrite (lik_eval E HE 1) by (auto; try lia; apply evidence_input, full_input; auto).
  rewrite (lik_eval E HE N) by (auto; try lia; apply evidence_input; auto).
  apply neteval_ext; [apply fnet_wf; auto|exact Hy|]. intros c f l r Hc Hf Hl Hr. unfold lval. rewrite <- !observed_row.
  specialize (Ea c f). unfold observed in Ea |- *. destruct (existsb (Nat.eqb f) S) eqn:Ef; [reflexivity|].
  destruct Ht as [_ Ht]. destruct (Ht n c f Hn Hc Hf) as (v & Ev & _). rewrite Ev in Ea |- *. rewrite (Ea v Hc Hf eq_refl). reflexivity.
Qed.

(** The two steps, for a first step with a known law. *)
Lemma two_steps N (m : M nat (tensor (option nat))) S xs : (forall f, In f S -> (f < F)%nat) -> (0 < N)%nat -> in_support E B N xs ->
  (forall t, outcome (fun _ v => (v < B)%nat) m (Ok t) -> full N t) ->
  Pr B (leafE E) (mbind m (fun t => sample E (given t (Some S)))) (rows_are N C F xs) =
  rprod N (fun n => rsum (e_K E) (fun y => w y * (lik E (one_row C F (xs n)) None 0 y / lik E (one_row C F (xs n)) (Some S) 0 y))) *
  expect EL m (fun t => rprod3 N C F (fun n c f => off S xs n c f (entry t n c f))).
Proof.
  intros HS HN Hx Ht. assert (HEL: leaf_expectation EL) by (apply (EL_ok E HE B HB)). unfold Pr. fold EL. rewrite expect_bind by auto. rewrite <- expect_scal by auto.
  apply expect_ext_below. intros t Hot. apply (second_step N t S xs); auto.
Qed.

Lemma lik_off S (xs : nat -> nat -> nat -> nat) n y : (forall f, In f S -> (f < F)%nat) -> (forall c f, (c < C)%nat -> (f < F)%nat -> (xs n c f < B)%nat) -> (y < e_K E)%nat ->
  lik E (one_row C F (xs n)) (Some S) 0 y = neteval (fnet E) (fun c f l r => if existsb (Nat.eqb f) S then 1 else pdf (leafE E) c f l r (xs n c f)) y /\
  0 < lik E (one_row C F (xs n)) (Some S) 0 y.
Proof.
  intros HS Hx Hy. pose proof (one_row_full xs n Hx) as H1.
  pose proof (lik_eval E HE 1 (one_row C F (xs n)) (Some S) 0 y ltac:(apply evidence_input, full_input; auto) ltac:(lia) Hy) as L.
  split.
  - rewrite L. apply neteval_ext; [apply fnet_wf; auto|exact Hy|]. intros c f l r Hc Hf Hl Hr. unfold lval. rewrite <- observed_row. unfold observed.
    destruct (existsb (Nat.eqb f) S); [reflexivity|]. unfold entry. reflexivity.
  - rewrite L. apply neteval_pos; [apply fnet_wf; auto|exact Hy|]. intros c f l r Hc Hf Hl Hr. unfold lval. destruct (row _ _ _ c f); [apply exp_pos|lra].
Qed.
Lemma EL_off S xs n c f l r : (c < C)%nat -> (f < F)%nat -> (l < e_L E)%nat -> (r < e_R E)%nat -> (xs n c f < B)%nat ->
  EL [c; f; l; r] (fun v => off S xs n c f (Some v)) = if existsb (Nat.eqb f) S then 1 else pdf (leafE E) c f l r (xs n c f).
Proof.
  intros Hc Hf Hl Hr Hx. unfold off. destruct (existsb (Nat.eqb f) S).
  - apply (EL_one EL (EL_ok E HE B HB)).
  - apply (EL_point E HE B HB); auto.
Qed.

Lemma steps_given N e ms S xs : e_K E = 1%nat -> evidence E N e ms -> (0 < N)%nat -> (forall f, In f S -> (f < F)%nat) ->
  (forall n c f, (n < N)%nat -> (c < C)%nat -> (f < F)%nat -> In f S -> observed e ms n c f = None) -> in_support E B N xs ->
  Pr B (leafE E) (mbind (sample E (given e ms)) (fun t => sample E (given t (Some S)))) (rows_are N C F xs) =
  Pr B (leafE E) (sample E (given e ms)) (rows_are N C F xs).
Proof.
  intros HK He HN HS Hh Hx. assert (EN: num_samples (given e ms) = N) by (cbn; apply (batch_size E); apply He).
  assert (Hch: check_args E (given e ms) = Ok tt) by (unfold check_args; cbn; destruct (e_K E =? 1)%nat; reflexivity).
  assert (Hin: input_ok E (num_samples (given e ms)) e ms) by (rewrite EN; apply evidence_input; auto).
  destruct (sample_evidence_law E HE EL (EL_ok E HE B HB) (given e ms) e eq_refl Hch Hin ltac:(rewrite EN; auto) eq_refl eq_refl eq_refl Hctx) as [O X].
  cbv zeta in O, X. rewrite EN in O, X. cbn [given a_ms] in O, X. specialize (X (agree_groups g o E HA Hco)).
  rewrite (two_steps N _ S xs HS HN Hx).
  2:{ intros t Ht. destruct (O _ _ Ht) as (t' & Et & St & Hv). assert (t' = t) by congruence. subst t'. split; [rewrite St; apply He|].
      intros n c f Hn Hc Hf. specialize (Hv n c f Hn Hc Hf). destruct (row e ms n c f) as [v|] eqn:Er.
      - exists v. split; [exact Hv|]. apply Nat.ltb_lt. rewrite <- (dl_supp B _ HB). destruct He as [[_ He] _]. apply (He n c f v Hn Hc Hf).
        rewrite <- observed_row in Er. unfold observed in Er. destruct ms as [s|]; [destruct (existsb _ s); [discriminate|]|]; exact Er.
      - destruct Hv as (v & l & r & Ev & _ & _ & Hlt). exists v. auto. }
  pose proof (X (fun n c f v => off S xs n c f v)) as X'. fold C F in X'. rewrite X'. unfold C, F. rewrite (given_law g o E B HA Hco HB Hctx N e ms xs He HN Hx). fold C F.
  rewrite <- rprod_mult. apply rprod_ext. intros n Hn. rewrite HK, !rsum_1. unfold w, cweight. rewrite HK. cbn [Nat.ltb Nat.leb]. rewrite !Rmult_1_l.
  destruct (lik_off S xs n 0 HS) as [L P]; [intros; apply Hx; auto|lia|].
  rewrite (lik_eval E HE N e ms n 0) by (try (apply evidence_input; auto); auto; rewrite HK; lia).
  destruct (agrees_with E (observed e ms n) (xs n)) eqn:Ea.
  - rewrite agrees_with_iff in Ea. fold (leafE E).
    match goal with |- context [neteval (fnet E) ?q 0 / _] => replace (neteval (fnet E) q 0) with (lik E (one_row C F (xs n)) (Some S) 0 0) end.
    + field. split; [|lra]. apply Rgt_not_eq, neteval_pos; [apply fnet_wf; auto|cbn; rewrite HK; lia|]. intros c f l r Hc Hf Hl Hr. unfold lval. destruct (row e ms n c f); [apply exp_pos|lra].
    + rewrite L. apply neteval_ext; [apply fnet_wf; auto|cbn; rewrite HK; lia|]. intros c f l r Hc Hf Hl Hr.
      destruct (row e ms n c f) as [v|] eqn:Er.
      * rewrite <- observed_row in Er. rewrite (Ea c f v Hc Hf Er). unfold off, eqv. destruct (existsb (Nat.eqb f) S) eqn:Ef.
        -- exfalso. apply existsb_eqb_In in Ef. rewrite (Hh n c f Hn Hc Hf Ef) in Er. discriminate.
        -- rewrite Nat.eqb_refl. ring.
      * symmetry. apply EL_off; auto; apply Hx; auto.
  - apply agrees_with_false in Ea as (c0 & f0 & v & Hc0 & Hf0 & Ev & Hne).
    rewrite (neteval_zero _ _ c0 f0); auto; [unfold Rdiv; ring|apply fnet_wf; auto|cbn; rewrite HK; lia|..].
    + intros c f l r Hc Hf Hl Hr. destruct (row e ms n c f) as [u|].
      * apply Rmult_le_pos; [left; apply exp_pos|]. unfold off, eqv. destruct (existsb _ S); [lra|]. destruct (_ =? _)%nat; lra.
      * rewrite EL_off by (auto; apply Hx; auto). destruct (existsb _ S); [lra|]. left; apply exp_pos.
    + intros l r Hl Hr. rewrite <- observed_row, Ev. unfold off, eqv. destruct (existsb (Nat.eqb f0) S) eqn:Ef.
      * exfalso. apply existsb_eqb_In in Ef. rewrite (Hh n c0 f0 Hn Hc0 Hf0 Ef) in Ev. discriminate.
      * destruct (Nat.eqb_spec v (xs n c0 f0)); [contradiction|ring].
Qed.

Lemma steps_free N S xs : (0 < N)%nat -> (forall f, In f S -> (f < F)%nat) -> in_support E B N xs ->
  Pr B (leafE E) (mbind (sample E (mkArgs (Some N) CNone None false false 1 None)) (fun t => sample E (given t (Some S)))) (rows_are N C F xs) =
  rprod N (fun n => rsum (e_K E) (fun y => w y * (lik E (one_row C F (xs n)) None 0 y / lik E (one_row C F (xs n)) (Some S) 0 y)) *
    rsum (e_K E) (fun y => w y * lik E (one_row C F (xs n)) (Some S) 0 y)).
Proof.
  intros HN HS Hx. set (a := mkArgs _ _ _ _ _ _ _).
  assert (Hch: check_args E a = Ok tt) by (unfold check_args; cbn; destruct (e_K E =? 1)%nat; reflexivity).
  destruct (sample_free_law E HE EL (EL_ok E HE B HB) a Hch I eq_refl HN eq_refl eq_refl R1_neq_R0 Hctx) as [O X]. change (num_samples a) with N in O, X.
  rewrite (two_steps N _ S xs HS HN Hx).
  2:{ intros t Ht. destruct (O _ _ Ht) as (t' & Et & St & Hv). assert (t' = t) by congruence. subst t'. split; [right; left; exact St|].
      intros n c f Hn Hc Hf. destruct (Hv n c f Hn Hc Hf) as (v & l & r & Ev & _ & _ & Hlt). exists v. split; [|exact Hlt]. unfold entry. rewrite St. exact Ev. }
  rewrite rprod_mult. f_equal.
  transitivity (expect EL (sample E a) (fun t => rprod3 N C F (fun n c f => off S xs n c f (get t [n; c; f])))).
  - apply expect_ext_outcome; [apply (EL_ok E HE B HB)|]. intros t Ht. destruct (O _ _ Ht) as (t' & Et & St & _). assert (t' = t) by congruence. subst t'.
    apply rprod3_ext. intros n c f _ _ _. unfold entry. rewrite St. reflexivity.
  - pose proof (X (fun n c f v => off S xs n c f v)) as X'. fold C F in X'. rewrite X'. apply rprod_ext. intros n Hn. apply rsum_ext. intros y Hy. unfold cweight. change (a_class a) with (@CNone). change (a_tsum a) with 1. fold (w y). f_equal.
    destruct (lik_off S xs n y HS) as [L P]; [intros; apply Hx; auto|exact Hy|]. rewrite (snet_fnet E HE) by (auto; apply (agree_groups g o E HA Hco)).
    rewrite L. apply neteval_ext; [apply fnet_wf; auto|exact Hy|]. intros c f l r Hc Hf Hl Hr. unfold elg. apply EL_off; auto; apply Hx; auto.
Qed.
Lemma steps_free_single N S xs : e_K E = 1%nat -> (0 < N)%nat -> (forall f, In f S -> (f < F)%nat) -> in_support E B N xs ->
  Pr B (leafE E) (mbind (sample E (mkArgs (Some N) CNone None false false 1 None)) (fun t => sample E (given t (Some S)))) (rows_are N C F xs) =
  Pr B (leafE E) (sample E (mkArgs (Some N) CNone None false false 1 None)) (rows_are N C F xs).
Proof.
  intros HK HN HS Hx. rewrite (steps_free N S xs HN HS Hx). unfold C, F. rewrite (free_single g o E B HA Hco HB Hctx N xs HK HN Hx). fold C F.
  apply rprod_ext. intros n Hn. rewrite HK, !rsum_1. unfold w. rewrite HK. cbn [Nat.ltb Nat.leb].
  destruct (lik_off S xs n 0 HS) as [_ P]; [intros; apply Hx; auto|lia|]. field. lra.
Qed.
End Steps.

(** Completing e and then drawing the features in S again, given everything else, has the law of completing e, if nothing
    in S was observed: so the missing features may be drawn in any order and in any groups. *)
Theorem C69_steps_partial : forall g o (E : einet nat) B N e ms S xs,
  accepted g o E -> consistent g -> discrete_leaf B (leafE E) -> lf_ctx (leafE E) = true -> e_K E = 1%nat ->
  evidence E N e ms -> (0 < N)%nat -> (forall f, In f S -> (f < e_F E)%nat) ->
  (forall n c f, (n < N)%nat -> (c < e_C E)%nat -> (f < e_F E)%nat -> In f S -> observed e ms n c f = None) ->
  (forall n c f, (n < N)%nat -> (c < e_C E)%nat -> (f < e_F E)%nat -> (xs n c f < B)%nat) ->
  Pr B (leafE E) (t <~ sample E (mkArgs None CNone (Some e) false false 1 ms) ;; sample E (mkArgs None CNone (Some t) false false 1 (Some S))) (rows_are N (e_C E) (e_F E) xs) =
  Pr B (leafE E) (sample E (mkArgs None CNone (Some e) false false 1 ms)) (rows_are N (e_C E) (e_F E) xs).
Proof. intros g o E B N e ms S xs HA Hco HB Hctx HK. exact (steps_given g o E B HA Hco HB Hctx N e ms S xs HK). Qed.
Print Assumptions C69_steps_partial.
(** Drawing some features of samples again, given the others, does not change the law of the samples. *)
Theorem C69_resample_partial : forall g o (E : einet nat) B N S xs,
  accepted g o E -> consistent g -> discrete_leaf B (leafE E) -> lf_ctx (leafE E) = true -> e_K E = 1%nat ->
  (0 < N)%nat -> (forall f, In f S -> (f < e_F E)%nat) ->
  (forall n c f, (n < N)%nat -> (c < e_C E)%nat -> (f < e_F E)%nat -> (xs n c f < B)%nat) ->
  Pr B (leafE E) (t <~ sample E (mkArgs (Some N) CNone None false false 1 None) ;; sample E (mkArgs None CNone (Some t) false false 1 (Some S))) (rows_are N (e_C E) (e_F E) xs) =
  Pr B (leafE E) (sample E (mkArgs (Some N) CNone None false false 1 None)) (rows_are N (e_C E) (e_F E) xs).
Proof. intros g o E B N S xs HA Hco HB Hctx HK. exact (steps_free_single g o E B HA Hco HB Hctx N S xs HK). Qed.
Print Assumptions C69_resample_partial.

(** With several classes every call draws the class anew, from the root weights and whatever the evidence is (C10). *)
Theorem C69_classes_partial : forall g o (E : einet nat) B N S xs,
  accepted g o E -> consistent g -> discrete_leaf B (leafE E) -> lf_ctx (leafE E) = true -> (1 < e_K E)%nat ->
  (0 < N)%nat -> (forall f, In f S -> (f < e_F E)%nat) ->
  (forall n c f, (n < N)%nat -> (c < e_C E)%nat -> (f < e_F E)%nat -> (xs n c f < B)%nat) ->
  let prior := fun y => exp (toR (o_root o [0; y; 0; 0]%nat)) / rsum (e_K E) (fun j => exp (toR (o_root o [0; j; 0; 0]%nat))) in
  let L := fun n ms y => lik E (one_row (e_C E) (e_F E) (xs n)) ms 0 y in
  Pr B (leafE E) (t <~ sample E (mkArgs (Some N) CNone None false false 1 None) ;; sample E (mkArgs None CNone (Some t) false false 1 (Some S))) (rows_are N (e_C E) (e_F E) xs) =
  rprod N (fun n => rsum (e_K E) (fun y => prior y * (L n None y / L n (Some S) y)) * rsum (e_K E) (fun y => prior y * L n (Some S) y)).
Proof.
  intros g o E B N S xs HA Hco HB Hctx HK HN HS Hx prior L. etransitivity; [exact (steps_free g o E B HA Hco HB Hctx N S xs HN HS Hx)|].
  destruct (Nat.ltb_spec 1 (e_K E)); [|lia].
  apply rprod_ext. intros n Hn. f_equal; apply rsum_ext; intros y Hy; rewrite (wroot_prior g o E HA y HK Hy); reflexivity.
Qed.
Print Assumptions C69_classes_partial.
(** Two classes, two features: the point 00 has probability 15/64; after drawing feature 1 again it has 423/1792. *)
Lemma bad3_hidden y : (y < 2)%nat -> lik bad3 (one_row 1 2 zeros) (Some [1%nat]) 0 y = if (y =? 0)%nat then 1/2 else 7/12.
Proof.
  intros Hy. rewrite <- bad3_lik_half by auto. pose proof (accepted_ok _ _ _ bad3_accepted) as HE.
  assert (H: evidence bad3 1 (one_row 1 2 zeros) (Some [1%nat])).
  { apply (full_input bad3 2); [exact (coin_discrete _ 2 1 2 1 bad3_p_ok)|apply (one_row_full bad3 2 (fun _ => zeros) 0); intros; unfold zeros; lia|].
    intros f [<-|[]]. change (e_F bad3) with 2%nat. lia. }
  rewrite (lik_eval bad3 HE 1 _ _ 0 y) by (auto; try lia; apply evidence_input; auto).
  rewrite (lik_eval bad3 HE 1 half_row None 0 y) by (auto; try lia; apply batch_input, half_row_batch).
  apply neteval_ext; [apply fnet_wf; auto|exact Hy|]. intros c f l r Hc Hf Hl Hr. change (nF (fnet bad3)) with 2%nat in Hf. unfold lval.
  destruct f as [|[|f]]; [reflexivity|reflexivity|lia].
Qed.
Theorem C69_classes_refuted : exists g o (E : einet nat) S,
  accepted g o E /\ consistent g /\ discrete_leaf 2 (leafE E) /\ lf_ctx (leafE E) = true /\ e_K E = 2%nat /\ (forall f, In f S -> (f < e_F E)%nat) /\
  Pr 2 (leafE E) (t <~ sample E (mkArgs (Some 1%nat) CNone None false false 1 None) ;; sample E (mkArgs None CNone (Some t) false false 1 (Some S)))
    (rows_are 1 (e_C E) (e_F E) (fun _ => zeros)) <>
  Pr 2 (leafE E) (sample E (mkArgs (Some 1%nat) CNone None false false 1 None)) (rows_are 1 (e_C E) (e_F E) (fun _ => zeros)).
Proof.
  pose proof (coin_discrete _ 2 1 2 1 bad3_p_ok) as HB. assert (Hco: consistent bad3_g) by (cbn; right; reflexivity).
  assert (HS: forall f, In f [1%nat] -> (f < e_F bad3)%nat) by (intros f [<-|[]]; change (e_F bad3) with 2%nat; lia).
  exists bad3_g, bad3_o, bad3, [1%nat]. split; [exact bad3_accepted|]. split; [exact Hco|]. split; [exact HB|]. split; [reflexivity|]. split; [reflexivity|]. split; [exact HS|].
  pose proof (steps_free bad3_g bad3_o bad3 2 bad3_accepted Hco HB eq_refl 1 [1%nat] (fun _ => zeros) ltac:(lia) HS ltac:(intros n c f _ _ _; unfold zeros; lia)) as H0. unfold given in H0. rewrite H0; clear H0.
  pose proof bad3_free as H. unfold sample1 in H. change (e_C bad3) with 1%nat. change (e_F bad3) with 2%nat. change (e_K bad3) with 2%nat. rewrite H.
  change (1 <? 2)%nat with true. cbv iota. rewrite rprod_S, rprod_0, !rsum_S, !rsum_0, !bad3_root_w, !bad3_lik, !bad3_hidden by lia. cbn [Nat.eqb]. lra.
Qed.
Print Assumptions C69_classes_refuted.

(** Two rows with missing features; feature 1 is missing in both.  It is drawn again after the completion. *)
Definition ex_ev1 (n c f : nat) : option nat := match n, f with _, 1 | 1, 0 | 0, 4 => None | _, _ => Some (alternating n c f) end%nat.
Lemma ex_ev1_lt n c f u : ex_ev1 n c f = Some u -> (u < 2)%nat.
Proof.
  assert (A: Some (alternating n c f) = Some u -> (u < 2)%nat) by (intros H; assert (u = alternating n c f) as -> by congruence; apply alternating_lt).
  unfold ex_ev1. destruct n as [|[|n]], f as [|[|[|[|[|f]]]]]; try discriminate; exact A.
Qed.
Example C69_ex : exists g o (E : einet nat), accepted g o E /\ e_F E = 5%nat /\ e_K E = 1%nat /\
  let e := two_rows 1 5 ex_ev1 in
  Pr 2 (leafE E) (t <~ sample E (mkArgs None CNone (Some e) false false 1 None) ;; sample E (mkArgs None CNone (Some t) false false 1 (Some [1%nat]))) (rows_are 2 1 5 alternating) =
  rprod 2 (fun n => lik E (one_row 1 5 (alternating n)) None 0 0 / lik E e None n 0).
Proof.
  destruct ex_bu as (E & A & HF & HC & HR & HK & D & X & _). exists ex_bu_g, ex_bu_o, E. split; [exact A|]. split; [exact HF|]. split; [exact HK|]. cbv zeta.
  assert (He: evidence E 2 (two_rows 1 5 ex_ev1) None) by (split; [apply two_rows_batch; auto; [intros u; apply (dl_supp 2 _ D)|exact ex_ev1_lt]|exact I]).
  pose proof (C69_steps_partial _ _ E 2 2 (two_rows 1 5 ex_ev1) None [1%nat] alternating A bu_consistent D X HK He ltac:(lia)) as H.
  pose proof (C09_conditional_partial _ _ E 2 2 (two_rows 1 5 ex_ev1) None alternating A bu_consistent D X HK He ltac:(lia)) as H'. rewrite HF, HC in H, H'. rewrite H; [apply H'|..].
  - intros; apply alternating_lt.
  - intros n c f v Hn Hc Hf Hv. destruct n as [|[|n]]; [| |lia]; destruct c as [|c]; try lia; destruct f as [|[|[|[|[|f]]]]]; try lia; cbn in Hv |- *; congruence.
  - intros f [<-|[]]. lia.
  - intros n c f Hn Hc Hf [<-|[]]. destruct n as [|[|n]]; [reflexivity|reflexivity|lia].
  - intros; apply alternating_lt.
Qed.
