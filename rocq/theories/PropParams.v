(** C46: sample(return_leaf_params=True) returns the parameters of the leaf components that sampling draws from. *)
From Coq Require Import List Arith Lia Bool ZArith Reals Lra Permutation.
Import ListNotations.
From Verif Require Import Base RSum Num Tensor Prob Layers RefSample Leaf Perm RefLeaf RefLeafS TypeChecks Einet RefEinet RefEinetS RefMpe Build RefBuild Spec RefSpec
  RefSpecS RefMore RefPack Ex ExBad PropForward PropSample Diff RefDiff Params RefParams.
Local Open Scope R_scope.

(** Arguments of sample that pass its assertions: a number of samples with an optional class, or evidence. *)
Definition valid_request {V} (E : einet V) (a : sargs) : Prop :=
  check_args E a = Ok tt /\ (0 < num_samples a)%nat /\ a_tsum a <> 0 /\
  match a_ev a with
  | None => class_ok E a
  | Some e => evidence E (num_samples a) e (a_ms a)
  end.
(** The observed entries of the request. *)
Definition given {V} (a : sargs (V := V)) (n c f : nat) : option V :=
  match a_ev a with None => None | Some e => observed e (a_ms a) n c f end.

Lemma top_down_perm {V} g o (E : einet V) : accepted g o E -> g_struct g = STopDown -> e_perm E = None.
Proof.
  intros HA Hs. pose proof (ac_build _ _ _ HA) as HB. unfold build in HB. apply bind_ok in HB as ([] & _ & HB).
  rewrite Hs in HB. unfold build_top_down in HB.
  repeat (apply bind_ok in HB as (? & _ & HB)). inversion HB. reflexivity.
Qed.
Lemma bottom_up_leaf {V} g o (E : einet V) : accepted g o E -> g_struct g = SBottomUp -> exists lf, e_leaf E = LBase lf.
Proof.
  intros HA Hs. pose proof (ac_build _ _ _ HA) as HB. unfold build in HB. apply bind_ok in HB as ([] & _ & HB).
  rewrite Hs in HB. unfold build_bottom_up in HB.
  repeat (apply bind_ok in HB as (? & _ & HB)). inversion HB. cbn [e_leaf]. eauto.
Qed.
Lemma request_ready {V} g o (E : einet V) a : accepted g o E -> valid_request E a -> exists cs, ready E a cs.
Proof.
  intros HA (Hch & HN & HT & H). pose proof (accepted_ok _ _ _ HA) as HE. destruct (a_ev a) as [e|] eqn:Hev.
  - eapply ready_evidence; eauto. apply evidence_input; auto.
  - eexists. apply ready_free; auto.
Qed.
Lemma given_kept {V} (a : sargs (V := V)) n c f : given a n c f = kept a n c f.
Proof. unfold given, kept. destruct (a_ev a) as [e|]; [|reflexivity]. unfold observed, row. destruct (a_ms a); reflexivity. Qed.

(** Every kind of request: the call returns one parameter vector per sample, channel and feature, and each is the
    vector of one component of that channel and feature. *)
Theorem C46_components : forall V g o (E : einet V) a par P supp r,
  accepted g o E -> g_struct g = STopDown -> valid_request E a ->
  shape par = [1%nat; e_C E; e_F E; e_L E; e_R E; P] ->
  outcome supp (sample_params E (Ok par) a) r ->
  exists t, r = Ok t /\ shape t = [num_samples a; e_C E; e_F E; P] /\
    forall n c f, (n < num_samples a)%nat -> (c < e_C E)%nat -> (f < e_F E)%nat ->
      exists l q, (l < e_L E)%nat /\ (q < e_R E)%nat /\ forall j, (j < P)%nat -> get t [n; c; f; j] = get par [0%nat; c; f; l; q; j].
Proof.
  intros V g o E a par P supp r HA Hs Hr Sp Ho. destruct (request_ready g o E a HA Hr) as (cs & Hrd).
  exact (params_out E (accepted_ok _ _ _ HA) a cs par P Hrd (top_down_perm _ _ _ HA Hs) Sp supp r Ho).
Qed.
Print Assumptions C46_components.

(** Drawing every hidden value from the returned parameters gives the law of the samples, jointly over all rows,
    channels and features.  [D c f p] is the distribution of a leaf of channel c and feature f with parameters [p]. *)
Theorem C46_law_partial : forall V g o (E : einet V) a par P EL (D : nat -> nat -> (nat -> num) -> (V -> R) -> R),
  accepted g o E -> g_struct g = STopDown -> lf_ctx (leafE E) = true -> valid_request E a ->
  a_mpe a = false -> a_mpel a = false -> leaf_expectation EL ->
  shape par = [1%nat; e_C E; e_F E; e_L E; e_R E; P] ->
  (forall c f l q p h, (c < e_C E)%nat -> (f < e_F E)%nat -> (l < e_L E)%nat -> (q < e_R E)%nat ->
     (forall j, (j < P)%nat -> p j = get par [0%nat; c; f; l; q; j]) -> D c f p h = EL [c; f; l; q] h) ->
  forall h : nat -> nat -> nat -> option V -> R, let N := num_samples a in
  expect EL (sample E a)
    (fun o => rprod N (fun n => rprod (e_C E) (fun c => rprod (e_F E) (fun f => h n c f (entry o n c f))))) =
  expect EL (sample_params E (Ok par) a)
    (fun t => rprod N (fun n => rprod (e_C E) (fun c => rprod (e_F E) (fun f =>
       match given a n c f with
       | Some v => h n c f (Some v)
       | None => D c f (fun j => get t [n; c; f; j]) (fun v => h n c f (Some v))
       end)))).
Proof.
  intros V g o E a par P EL D HA Hs Hctx Hr Hm Hml HEL Sp HD h N. destruct (request_ready g o E a HA Hr) as (cs & Hrd).
  etransitivity; [exact (params_law E (accepted_ok _ _ _ HA) EL HEL a cs par P D Hrd (top_down_perm _ _ _ HA Hs) Hctx Hm Hml Sp HD h)|].
  apply (expect_ext EL HEL). intros t. apply rprod3_ext. intros n c f _ _ _. rewrite given_kept. reflexivity.
Qed.
Print Assumptions C46_law_partial.

(** With is_mpe or mpe_at_leaves: the modes of the returned parameters are the samples. *)
Theorem C46_modes_partial : forall V g o (E : einet V) a par P EL md (Mo : nat -> nat -> (nat -> num) -> V),
  accepted g o E -> g_struct g = STopDown -> lf_ctx (leafE E) = true -> lf_mode (leafE E) = Some md -> valid_request E a ->
  a_mpe a || a_mpel a = true -> leaf_expectation EL ->
  shape par = [1%nat; e_C E; e_F E; e_L E; e_R E; P] ->
  (forall c f l q p, (c < e_C E)%nat -> (f < e_F E)%nat -> (l < e_L E)%nat -> (q < e_R E)%nat ->
     (forall j, (j < P)%nat -> p j = get par [0%nat; c; f; l; q; j]) -> Mo c f p = md [c; f; l; q]) ->
  forall h : nat -> nat -> nat -> option V -> R, let N := num_samples a in
  expect EL (sample E a)
    (fun o => rprod N (fun n => rprod (e_C E) (fun c => rprod (e_F E) (fun f => h n c f (entry o n c f))))) =
  expect EL (sample_params E (Ok par) a)
    (fun t => rprod N (fun n => rprod (e_C E) (fun c => rprod (e_F E) (fun f => h n c f
       (match given a n c f with Some v => Some v | None => Some (Mo c f (fun j => get t [n; c; f; j])) end))))).
Proof.
  intros V g o E a par P EL md Mo HA Hs Hctx Hmd Hr Hm HEL Sp HD h N. destruct (request_ready g o E a HA Hr) as (cs & Hrd).
  etransitivity; [exact (params_mode E (accepted_ok _ _ _ HA) EL HEL a cs par P md Mo Hrd (top_down_perm _ _ _ HA Hs) Hctx Hmd Hm Sp HD h)|].
  apply (expect_ext EL HEL). intros t. apply rprod3_ext. intros n c f _ _ _. rewrite given_kept. reflexivity.
Qed.
Print Assumptions C46_modes_partial.

(** A bottom-up network never returns parameters. *)
Theorem C46_bottom_up_refuted : forall V g o (E : einet V) a gp supp r,
  accepted g o E -> g_struct g = SBottomUp -> valid_request E a -> outcome supp (sample_params E gp a) r -> exists x, r = Err x.
Proof.
  intros V g o E a gp supp r HA Hs Hr Ho. destruct (request_ready g o E a HA Hr) as (cs & Hrd).
  destruct (bottom_up_leaf _ _ _ HA Hs) as (lf & El). exact (params_base E a cs gp lf Hrd El supp r Ho).
Qed.
Print Assumptions C46_bottom_up_refuted.

(** is_differentiable: with one-hot indices over more than one repetition the result is that of the index branch
    (finite parameters). *)
Theorem C46_one_hot : forall V (lf : bleaf V) Fo sc grp N P (out rep : tensor nat) (hout hrep par : tensor num),
  (0 < N)%nat -> (forall r f, (r < lf_R lf)%nat -> (f < lf_F lf)%nat -> (grp r f < Fo)%nat) ->
  shape sc = [lf_F lf; Fo; lf_R lf] ->
  (forall r f d, (r < lf_R lf)%nat -> (f < lf_F lf)%nat -> (d < Fo)%nat -> get sc [f; d; r] = if (grp r f =? d)%nat then 1%nat else 0%nat) ->
  shape out = [N; Fo] -> shape rep = [N] ->
  (forall n d, (n < N)%nat -> (d < Fo)%nat -> (get out [n; d] < lf_L lf)%nat) ->
  (forall n, (n < N)%nat -> (get rep [n] < lf_R lf)%nat) ->
  shape hout = [N; Fo; lf_L lf] -> shape hrep = [N; lf_R lf] ->
  (forall n d l, (n < N)%nat -> (d < Fo)%nat -> (l < lf_L lf)%nat -> get hout [n; d; l] = Fin (if (l =? get out [n; d])%nat then 1 else 0)) ->
  (forall n r, (n < N)%nat -> (r < lf_R lf)%nat -> get hrep [n; r] = Fin (if (r =? get rep [n])%nat then 1 else 0)) ->
  shape par = [1%nat; lf_C lf; lf_F lf; lf_L lf; lf_R lf; P] -> (forall idx, isfin (get par idx) = true) ->
  exists t t', fact_params lf Fo sc N out rep par = Ok t /\ dfact_params lf sc N (lf_R lf) hout hrep par = Ok t' /\
    shape t = shape t' /\ shape t = [N; lf_C lf; lf_F lf; P] /\
    forall n c f j, (n < N)%nat -> (c < lf_C lf)%nat -> (f < lf_F lf)%nat -> (j < P)%nat ->
      get t' [n; c; f; j] = get t [n; c; f; j] /\
      get t [n; c; f; j] = get par [0%nat; c; f; get out [n; grp (get rep [n]) f]; get rep [n]; j].
Proof.
  intros V lf Fo sc grp N P out rep hout hrep par HN Hg Ssc Gsc So Sr Go Gr Sho Shr Gho Ghr Sp Hfin.
  pose (c := mkCtx N out rep false 1). pose (cd := mkD N hout hrep false 1).
  assert (Hsc: scopes_grp sc (lf_F lf) Fo (lf_R lf) grp) by (split; [exact Ssc|split; auto]).
  assert (Hc: cgood c N Fo (lf_L lf) (lf_R lf)) by (repeat split; auto).
  assert (Hcd: ohctx cd c N Fo (lf_L lf) (lf_R lf)) by (split; [exact Hc|repeat split; auto]).
  destruct (fact_params_ok lf Fo sc grp c N P HN Hsc Hc par Sp) as (t & Et & St & Gt).
  destruct (dfact_params_ok lf Fo sc grp cd c N P HN Hsc Hcd par Sp Hfin) as (t' & Et' & St' & Gt').
  exists t, t'. split; [exact Et|]. split; [exact Et'|]. split; [congruence|]. split; [exact St|].
  intros n ch f j Hn Hch Hf Hj. split; [|apply Gt; auto]. rewrite Gt, Gt'; auto.
Qed.
Print Assumptions C46_one_hot.
(** With a single repetition the one-hot branch raises whenever a feature has more than one component. *)
Theorem C46_one_hot_single_refuted : forall V (lf : bleaf V) Fo pl N P (hout par : tensor num), lf_L lf <> 1%nat ->
  shape par = [1%nat; lf_C lf; lf_F lf; lf_L lf; 1%nat; P] -> shape hout = [N; Fo; lf_L lf] -> (0 < Fo)%nat ->
  is_perm pl (lf_F lf + simple_dummy (lf_F lf) Fo) ->
  dsimple_params lf Fo (vec (argsort pl)) N hout par = Err AssertionError.
Proof. intros V lf Fo pl N P hout par HL Sp Ho HFo Hp. exact (dsimple_params_raises lf Fo pl N hout par P HL Sp Ho HFo Hp). Qed.
Print Assumptions C46_one_hot_single_refuted.

(** The network [bad1] (4 features, 2 components per feature with different parameters): sampling two rows. *)
Definition ex_par : tensor num :=
  mkT [1; 1; 4; 2; 1; 1]%nat (fun idx => match idx with [_; c; f; l; r; _] => Fin (bad1_p [c; f; l; r]) | _ => NaN end).
Definition ex_coin (c f : nat) (p : nat -> num) (h : nat -> R) : R := toR (p 0%nat) * h 0%nat + (1 - toR (p 0%nat)) * h 1%nat.
Definition two_samples : sargs := @mkArgs nat (Some 2%nat) CNone None false false 1 None.
Lemma bad1_EL : leaf_expectation (EL_discrete 2 (leaf_draw (leafE bad1))).
Proof. apply EL_discrete_ok. exact (leaf_draw_sum bad1 (accepted_ok _ _ _ bad1_accepted) 2 (coin_discrete _ 4 1 2 1 bad1_p_ok)). Qed.
Example C46_ex : accepted bad1_g bad1_o bad1 /\ valid_request bad1 two_samples /\
  forall h : nat -> nat -> nat -> option nat -> R,
  expect (EL_discrete 2 (leaf_draw (leafE bad1))) (sample bad1 two_samples)
    (fun o => rprod 2 (fun n => rprod 1 (fun c => rprod 4 (fun f => h n c f (entry o n c f))))) =
  expect (EL_discrete 2 (leaf_draw (leafE bad1))) (sample_params bad1 (Ok ex_par) two_samples)
    (fun t => rprod 2 (fun n => rprod 1 (fun c => rprod 4 (fun f =>
       ex_coin c f (fun j => get t [n; c; f; j]) (fun v => h n c f (Some v)))))).
Proof.
  assert (VR: valid_request bad1 two_samples).
  { split; [reflexivity|]. split; [cbn; lia|]. split; [cbn; lra|]. exact I. }
  split; [exact bad1_accepted|]. split; [exact VR|]. intros h.
  apply (C46_law_partial nat bad1_g bad1_o bad1 two_samples ex_par 1 _ ex_coin bad1_accepted eq_refl eq_refl VR eq_refl eq_refl bad1_EL eq_refl).
  intros c f l q p k Hc Hf Hl Hq Hp. cbn [bad1 e_C e_F e_L e_R] in *. unfold ex_coin. rewrite Hp by lia. cbn [ex_par get toR].
  unfold EL_discrete. rewrite !rsum_S, rsum_0. unfold leaf_draw. change (leafE bad1) with (coin bad1_p 4 1 2 1).
  unfold in_range. cbn [coin lf_C lf_F lf_L lf_R lf_logp].
  rewrite (proj2 (Nat.ltb_lt c 1)), (proj2 (Nat.ltb_lt f 4)), (proj2 (Nat.ltb_lt l 2)), (proj2 (Nat.ltb_lt q 1)) by auto.
  cbn [andb Nat.eqb pval]. pose proof (bad1_p_ok [c; f; l; q]). rewrite !exp_ln by lra. ring.
Qed.
(** A bottom-up network whose request is valid. *)
Example C46_bottom_up_ex : exists g o (E : einet nat), accepted g o E /\ g_struct g = SBottomUp /\ valid_request E two_samples.
Proof.
  destruct ex_bu as (E & A & HF & HC & HR & HK & D & X & _). exists ex_bu_g, ex_bu_o, E. split; [exact A|]. split; [reflexivity|].
  split; [unfold check_args; rewrite HK; reflexivity|]. split; [cbn; lia|]. split; [cbn; lra|]. exact I.
Qed.
