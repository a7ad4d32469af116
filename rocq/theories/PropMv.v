(** C34: leaves over groups of features. *)
From Coq Require Import List Arith ZArith Lia Bool Reals Lra Permutation.
Import ListNotations.
From Verif Require Import Base RSum Num Tensor Prob Layers Circuit Net RefFwd RefSample Leaf Perm RefLeaf RefLeafS TypeChecks Einet RefNet RefEinet RefEinetS
  Build RefScopes RefBuild Spec RefSpec Ex MultiDist RefMulti PropParams PropMulti Mv RefMv.
Local Open Scope R_scope.
Local Arguments Nat.div : simpl never. Local Arguments Nat.modulo : simpl never. Local Arguments Nat.sub : simpl never.
Local Arguments Nat.mul : simpl never. Local Arguments Nat.add : simpl never. Local Arguments Nat.min : simpl never.

(** A layer with F features in groups of k: positive sizes, finite densities that look at the k values of a group only. *)
Record group_leaf {V} (C F L Rn k : nat) (m : mvleaf V) : Prop := {
  gl_sizes : mv_C m = C /\ mv_F m = F /\ mv_L m = L /\ mv_R m = Rn /\ mv_k m = k;
  gl_pos : (0 < C)%nat /\ (0 < F)%nat /\ (0 < L)%nat /\ (0 < Rn)%nat /\ (0 < k)%nat;
  gl_fin : forall key v, isfin (mv_logp m key v) = true;
  gl_ext : forall key u v, (forall j, (j < k)%nat -> u j = v j) -> mv_logp m key u = mv_logp m key v }.
Lemma group_ok {V} C F L Rn k (m : mvleaf V) : group_leaf C F L Rn k m -> mv_ok m.
Proof. intros [(EC & EF & EL' & ER & Ek) (H1 & H2 & H3 & H4 & H5) Hf He]. subst. split; auto. Qed.

(** Exactly G groups of k. *)
Lemma exact_pad {V} C G L Rn k (m : mvleaf V) : group_leaf C (G * k) L Rn k m -> mv_pad m = 0%nat /\ mv_out m = G.
Proof.
  intros H. destruct H as [(_ & EF & _ & _ & Ek) (_ & _ & _ & _ & Hk) _ _]. split.
  - unfold mv_pad. rewrite EF, Ek. apply Nat.mod_mul. lia.
  - unfold mv_out, ceil_div. rewrite EF, Ek. symmetry. apply Nat.div_unique with (r := (k - 1)%nat); lia.
Qed.

(** * Likelihoods *)
(** Complete data, features filling the groups: group g is scored at features g*k ... g*k+k-1. *)
Theorem C34_forward : forall V C G L Rn k (m : mvleaf V) N x d,
  group_leaf C (G * k) L Rn k m -> shape x = [N; C; (G * k)%nat] ->
  (forall n c f, (n < N)%nat -> (c < C)%nat -> (f < G * k)%nat -> get x [n; c; f] = Some (d n c f)) ->
  exists y, mv_forward m x None = Ok y /\ shape y = [N; C; G; L; Rn] /\
  forall n c g l r, (n < N)%nat -> (c < C)%nat -> (g < G)%nat -> (l < L)%nat -> (r < Rn)%nat ->
    get y [n; c; g; l; r] = mv_logp m [c; g; l; r] (fun j => d n c (g * k + j)%nat).
Proof.
  intros V C G L Rn k m N x d H Sx Gx. destruct (exact_pad _ _ _ _ _ _ H) as [Hp EG]. pose proof (group_ok _ _ _ _ _ _ H) as Hm.
  destruct H as [(EC & EF & EL' & ER & Ek) _ _ _]. subst C L Rn k. subst G.
  destruct (mv_forward_ok m Hm Hp N x d None) as (y & Ey & Sy & Gy); auto.
  { split; rewrite EF; auto. }
  exists y. auto.
Qed.
Print Assumptions C34_forward.

(** Features that do not fill the groups: the forward pass raises on all data, and nothing can be sampled. *)
Theorem C34_any_features_refuted : forall V C F L Rn k (m : mvleaf V), group_leaf C F L Rn k m -> (F mod k <> 0)%nat ->
  (forall x ms, mv_forward m x ms = Err NotImplementedErr) /\
  (forall N mpe p rep supp r, (0 < N)%nat -> outcome supp (mv_sample m N mpe p rep) r -> r = Err RuntimeErr).
Proof.
  intros V C F L Rn k m H Hk. pose proof (group_ok _ _ _ _ _ _ H) as Hm.
  destruct H as [(EC & EF & EL' & ER & Ek) _ _ _].
  assert (Hp: mv_pad m <> 0%nat) by (unfold mv_pad; congruence). split.
  - intros. apply pad_forward; auto.
  - intros N mpe p rep supp r HN Ho. unfold mv_sample, mv_draw in Ho. destruct (rows_ok m) as (rows & Er & _). rewrite Er in Ho. cbn [lift mbind] in Ho.
    destruct mpe.
    + unfold repeat_t in Ho. cbn [unsqueeze insert_nth shape length Nat.eqb lift mbind] in Ho. rewrite pad_arrange in Ho by auto. cbn [lift mbind] in Ho.
      inversion Ho; auto.
    + rewrite mbind_assoc in Ho. apply outcome_bind in Ho as [(e & Ho & _)|(t & _ & Ho)].
      * destruct (proj1 (indep_draw (fun _ => mv_zero m) [N; mv_dists m] (fun idx => get rows (skipn 1 idx))) _ _ Ho) as (t & Z & _). discriminate.
      * rewrite pad_arrange in Ho by auto. cbn [lift mbind] in Ho. inversion Ho; auto.
Qed.
Print Assumptions C34_any_features_refuted.

(** One missing entry anywhere: with groups of at least two features the forward pass raises. *)
Theorem C34_missing_refuted : forall V C G L Rn k (m : mvleaf V) N x ms n c f,
  group_leaf C (G * k) L Rn k m -> (1 < k)%nat -> shape x = [N; C; (G * k)%nat] ->
  (n < N)%nat -> (c < C)%nat -> (f < G * k)%nat -> get x [n; c; f] = None -> mv_forward m x ms = Err IndexErr.
Proof.
  intros V C G L Rn k m N x ms n c f H Hk Sx Hn Hc Hf Hx. destruct (exact_pad _ _ _ _ _ _ H) as [Hp EG]. pose proof (group_ok _ _ _ _ _ _ H) as Hm.
  destruct H as [(EC & EF & EL' & ER & Ek) _ _ _]. subst C L Rn k.
  apply (mv_forward_missing m Hm Hp N x ms n c f); auto; rewrite EF; auto.
Qed.
Print Assumptions C34_missing_refuted.

(** Marginalized scopes: a list raises; a tensor drops every group that contains one of the named features. *)
Theorem C34_marginalized : forall V C G L Rn k (m : mvleaf V) N x d s,
  group_leaf C (G * k) L Rn k m -> (1 < k)%nat -> shape x = [N; C; (G * k)%nat] ->
  (forall n c f, (n < N)%nat -> (c < C)%nat -> (f < G * k)%nat -> get x [n; c; f] = Some (d n c f)) ->
  (forall f, In f s -> (f < G * k)%nat) ->
  mv_forward m x (Some (false, s)) = Err AttributeErr /\
  exists y, mv_forward m x (Some (true, s)) = Ok y /\ shape y = [N; C; G; L; Rn] /\
  forall n c g l r, (n < N)%nat -> (c < C)%nat -> (g < G)%nat -> (l < L)%nat -> (r < Rn)%nat ->
    ((exists j, (j < k)%nat /\ In (g * k + j)%nat s) -> get y [n; c; g; l; r] = Fin 0) /\
    ((forall j, (j < k)%nat -> ~ In (g * k + j)%nat s) -> get y [n; c; g; l; r] = mv_logp m [c; g; l; r] (fun j => d n c (g * k + j)%nat)).
Proof.
  intros V C G L Rn k m N x d s H Hk Sx Gx Hs. destruct (exact_pad _ _ _ _ _ _ H) as [Hp EG]. pose proof (group_ok _ _ _ _ _ _ H) as Hm.
  destruct H as [(EC & EF & EL' & ER & Ek) _ _ _]. subst C L Rn k. subst G.
  assert (Hx: complete m N x d) by (split; rewrite EF; auto).
  split; [apply (mv_forward_list m Hm Hp N x d); auto|].
  destruct (mv_forward_ok m Hm Hp N x d (Some (true, s)) Hx) as (y & Ey & Sy & Gy).
  { split; auto. rewrite EF. auto. }
  exists y. split; auto. split; auto. intros n c g l r Hn Hc Hg Hl Hr. rewrite Gy by auto. cbn [touched]. split.
  - intros (j & Hj & Hin). replace (existsb (Nat.eqb g) _) with true; auto. symmetry. apply existsb_exists. exists g. rewrite Nat.eqb_refl. split; auto.
    apply in_map_iff. exists (g * mv_k m + j)%nat. split; auto. rewrite Nat.add_comm, Nat.div_add by lia. rewrite Nat.div_small by auto. reflexivity.
  - intros Hno. destruct (existsb (Nat.eqb g) _) eqn:E; auto. exfalso. apply existsb_exists in E as (g' & Hin & E). apply Nat.eqb_eq in E. subst g'.
    apply in_map_iff in Hin as (f & Ef & Hin). apply (Hno (f mod mv_k m)%nat); [apply Nat.mod_upper_bound; lia|].
    replace (g * mv_k m + f mod mv_k m)%nat with f; auto. pose proof (Nat.div_mod f (mv_k m) ltac:(lia)). nia.
Qed.
Print Assumptions C34_marginalized.

(** * Samples of the layer *)
Definition reps (N Rn : nat) (rep : tensor nat) : Prop := shape rep = [N] /\ forall n, (n < N)%nat -> (get rep [n] < Rn)%nat.
Lemma reps_good N Rn L rep : reps N Rn rep -> cgood (mkCtx N (mkT [N; 0%nat] (fun _ => 0%nat)) rep false 1) N 0 L Rn.
Proof. intros [Sr Gr]. repeat split; auto. intros; lia. Qed.

(** Without selection: one vector is drawn per row, channel, group and leaf, from the distribution of that group in the
    row's repetition; its entries go to the features of the group, in order. *)
Theorem C34_sample_all : forall V C G L Rn k (m : mvleaf V) N rep supp r,
  group_leaf C (G * k) L Rn k m -> reps N Rn rep -> outcome supp (mv_sample m N false None rep) r ->
  exists t u, r = Ok t /\ shape t = [N; C; (G * k)%nat; L] /\
  forall n c g l, (n < N)%nat -> (c < C)%nat -> (g < G)%nat -> (l < L)%nat ->
    supp [c; g; l; get rep [n]] (u n c g l) /\ forall j, (j < k)%nat -> get t [n; c; (g * k + j)%nat; l] = u n c g l j.
Proof.
  intros V C G L Rn k m N rep supp r H Hr Ho. destruct (exact_pad _ _ _ _ _ _ H) as [Hp EG]. pose proof (group_ok _ _ _ _ _ _ H) as Hm.
  destruct H as [(EC & EF & EL' & ER & Ek) _ _ _]. subst C L Rn k. subst G.
  unfold mv_sample in Ho. apply outcome_bind in Ho as [(e & Ho & _)|(s & Hs & Ho)].
  { destruct (mv_draw_outcome m Hm Hp N _ _ Ho) as (s & u & Z & _). discriminate. }
  destruct (mv_draw_outcome m Hm Hp N _ _ Hs) as (s' & u & Z & Hc & Hu). inversion Z; subst s'; clear Z.
  destruct (carries_select m Hm Hp N s u _ 0 Hc (reps_good N _ _ rep Hr)) as (t & Et & St & Gt). cbn [c_rep] in *.
  rewrite Et in Ho. cbn [lift] in Ho. apply outcome_ret_inv in Ho. subst r. exists t, (fun n c g l => u n c g l (get rep [n])).
  split; auto. split; [rewrite St, EF; auto|]. intros n c g l Hn Hch Hg Hl. split; [apply Hu; auto; apply Hr; auto|]. intros j Hj. apply Gt; auto.
Qed.
Print Assumptions C34_sample_all.

(** The law: the vectors of all rows, channels, groups and leaves are independent, each with the law of its distribution. *)
Theorem C34_sample_law : forall V C G L Rn k (m : mvleaf V) N rep EL (h : nat -> nat -> nat -> nat -> (nat -> V) -> R),
  group_leaf C (G * k) L Rn k m -> reps N Rn rep -> leaf_expectation EL ->
  (forall n c g l u v, (forall j, (j < k)%nat -> u j = v j) -> h n c g l u = h n c g l v) ->
  expect EL (mv_sample m N false None rep)
    (fun t => rprod N (fun n => rprod C (fun c => rprod G (fun g => rprod L (fun l => h n c g l (fun j => get t [n; c; (g * k + j)%nat; l])))))) =
  rprod N (fun n => rprod C (fun c => rprod G (fun g => rprod L (fun l => EL [c; g; l; get rep [n]] (h n c g l))))).
Proof.
  intros V C G L Rn k m N rep EL h H Hr HEL Hh. destruct (exact_pad _ _ _ _ _ _ H) as [Hp EG]. pose proof (group_ok _ _ _ _ _ _ H) as Hm.
  destruct H as [(EC & EF & EL' & ER & Ek) _ _ _]. subst C L Rn k. subst G.
  destruct (rows_ok m) as (rows & Er & Sr & Gr).
  set (p0 := draw_tensor (V := nat -> V) (fun _ => mv_zero m) [N; mv_dists m] (fun idx => LeafD (get rows (skipn 1 idx)) (fun v => Ret v))).
  set (dd := fun n c g l => ravel [mv_C m; mv_out m; mv_L m; mv_R m] [c; g; l; get rep [n]]).
  set (sg := fun idx => match idx with [n; c; g; l] => [n; dd n c g l] | _ => [] end).
  set (s' := [N; mv_C m; mv_out m; mv_L m]).
  pose proof (indep_draw (V := nat -> V) (fun _ => mv_zero m) [N; mv_dists m] (fun idx => get rows (skipn 1 idx))) as I0. fold p0 in I0.
  assert (I1: indep s' (fun idx => get rows (skipn 1 (sg idx))) (mbind p0 (fun t => lift (Ok (mkT s' (fun idx => get t (sg idx))))))).
  { apply (indep_select [N; mv_dists m] s' (fun idx => get rows (skipn 1 idx)) sg (fun t => Ok (mkT s' (fun idx => get t (sg idx)))) p0 I0).
    - intros t _. eexists. split; [reflexivity|]. auto.
    - intros idx Hi. unfold s' in Hi. inbs. unfold sg, dd. cbn [inb]. split; auto. split; auto. apply (dist_lt m); auto. apply Hr; auto.
    - intros i j Hi Hj Hij. unfold s' in Hi, Hj. inbs. unfold sg, dd in Hij. inversion Hij as [[E1 E2]]. subst.
      match goal with |- [?n; ?c; ?g; ?l] = [_; ?c'; ?g'; ?l'] =>
        assert (Z: [c; g; l; get rep [n]] = [c'; g'; l'; get rep [n]]);
          [rewrite <- (unravel_ravel [mv_C m; mv_out m; mv_L m; mv_R m] [c; g; l; get rep [n]]), <- (unravel_ravel [mv_C m; mv_out m; mv_L m; mv_R m] [c'; g'; l'; get rep [n]]);
            [f_equal; exact E2| |]; cbn [inb]; repeat split; auto; apply Hr; auto|] end.
      inversion Z. reflexivity. }
  destruct I1 as [_ X]. specialize (X EL HEL (fun idx v => match idx with [n; c; g; l] => h n c g l v | _ => 1 end)).
  assert (R4: forall u : list nat -> R, lprod u (all_idx s') = rprod N (fun n => rprod (mv_C m) (fun c => rprod (mv_out m) (fun g => rprod (mv_L m) (fun l => u [n; c; g; l]))))).
  { intros u. unfold s'. rewrite lprod_all_idx_cons. apply rprod_ext. intros n _. rewrite lprod_all_idx_cons. apply rprod_ext. intros c _.
    rewrite lprod_all_idx_cons. apply rprod_ext. intros g _. rewrite lprod_all_idx_cons. apply rprod_ext. intros l _. cbn [all_idx lprod]. ring. }
  rewrite R4 in X. etransitivity; [|etransitivity; [exact X|]].
  - rewrite expect_bind by auto. unfold mv_sample, mv_draw. rewrite Er. cbn [lift mbind]. rewrite mbind_assoc. fold p0. rewrite expect_bind by auto.
    apply (expect_ext_outcome EL HEL). intros t Ht. destruct (proj1 I0 _ _ Ht) as (t0 & Z & St & _). inversion Z; subst t0; clear Z.
    match goal with |- context [mv_arrange m N ?S] => set (s0 := S) end.
    destruct (arrange_ok m Hm Hp N s0) as (y & Ey & Sy & Gy); [reflexivity|]. rewrite Ey. cbn [lift mbind].
    destruct (carries_select m Hm Hp N (unsqueeze 6 (unsqueeze 1 y)) (fun n c g l q j => get t [n; ravel [mv_C m; mv_out m; mv_L m; mv_R m] [c; g; l; q]] j)
      (mkCtx N (mkT [N; 0%nat] (fun _ => 0%nat)) rep false 1) 0) as (tt & Et & Stt & Gtt).
    { split; [cbn [unsqueeze shape]; rewrite Sy; reflexivity|]. intros n c g j l q Hn Hc Hg Hj Hl Hq. cbn [unsqueeze get remove_nth].
      rewrite (Gy n c g j l q [n; ravel [mv_C m; mv_out m; mv_L m; mv_R m] [c; g; l; q]; j]); auto.
      unfold s0. cbn [shape inb]. pose proof (dist_lt m c g l q Hc Hg Hl Hq). auto. }
    { apply reps_good; auto. }
    cbn [c_rep] in *. rewrite Et. cbn [lift expect]. rewrite R4.
    apply rprod_ext. intros n Hn. apply rprod_ext. intros c Hc. apply rprod_ext. intros g Hg. apply rprod_ext. intros l Hl.
    apply Hh. intros j Hj. rewrite Gtt by auto. reflexivity.
  - apply rprod_ext. intros n Hn. apply rprod_ext. intros c Hc. apply rprod_ext. intros g Hg. apply rprod_ext. intros l Hl.
    unfold sg, dd. cbn [skipn]. rewrite Gr; auto. apply Hr; auto.
Qed.
Print Assumptions C34_sample_law.

(** MPE: the mean of the group's distribution. *)
Theorem C34_modes : forall V C G L Rn k (m : mvleaf V) N rep, group_leaf C (G * k) L Rn k m -> reps N Rn rep ->
  exists t, mv_sample m N true None rep = Ret t /\ shape t = [N; C; (G * k)%nat; L] /\
  forall n c g l j, (n < N)%nat -> (c < C)%nat -> (g < G)%nat -> (l < L)%nat -> (j < k)%nat ->
    get t [n; c; (g * k + j)%nat; l] = mv_mean m [c; g; l; get rep [n]] j.
Proof.
  intros V C G L Rn k m N rep H Hr. destruct (exact_pad _ _ _ _ _ _ H) as [Hp EG]. pose proof (group_ok _ _ _ _ _ _ H) as Hm.
  destruct H as [(EC & EF & EL' & ER & Ek) _ _ _]. subst C L Rn k. subst G.
  destruct (mv_draw_modes m Hm Hp N) as (s & Es & Hc); auto.
  destruct (carries_select m Hm Hp N s _ _ 0 Hc (reps_good N _ _ rep Hr)) as (t & Et & St & Gt). cbn [c_rep] in *.
  exists t. unfold mv_sample. rewrite Es. cbn [mbind]. rewrite Et. split; auto. split; [rewrite St, EF; auto|]. intros. apply Gt; auto.
Qed.
Print Assumptions C34_modes.

(** * Selection of the components *)
(** Several repetitions (FactorizedLeaf): feature f keeps its own position in the vector of its group, but the component
    is the one selected for group f mod G.  [grp r g]: the block of group g in repetition r. *)
Theorem C34_select : forall V C G L Rn k (m : mvleaf V) Fo sc grp c N supp r,
  group_leaf C (G * k) L Rn k m -> (0 < N)%nat -> scopes_grp sc G Fo Rn grp -> cgood c N Fo L Rn ->
  outcome supp (mv_fact_sample m Fo sc c false) r ->
  exists t u, r = Ok t /\ shape t = [N; C; (G * k)%nat] /\
  (forall n ch g l, (n < N)%nat -> (ch < C)%nat -> (g < G)%nat -> (l < L)%nat -> supp [ch; g; l; get (c_rep c) [n]] (u n ch g l)) /\
  forall n ch f, (n < N)%nat -> (ch < C)%nat -> (f < G * k)%nat ->
    get t [n; ch; f] = u n ch (f / k)%nat (get (c_out c) [n; grp (get (c_rep c) [n]) (f mod G)%nat]) (f mod k)%nat.
Proof.
  intros V C G L Rn k m Fo sc grp c N supp r H HN Hsc Hc Ho. destruct (exact_pad _ _ _ _ _ _ H) as [Hp EG]. pose proof (group_ok _ _ _ _ _ _ H) as Hm.
  assert (Hr: reps N Rn (c_rep c)) by (destruct Hc as (_ & _ & _ & A & B); split; auto).
  unfold mv_fact_sample in Ho. pose proof Hc as (En & _ & Go & _ & _). rewrite En in Ho.
  apply outcome_bind in Ho as [(e & Ho & _)|(s & Hs & Ho)].
  { destruct (C34_sample_all _ _ _ _ _ _ m N _ _ _ H Hr Ho) as (s & u & Z & _). discriminate. }
  destruct (C34_sample_all _ _ _ _ _ _ m N _ _ _ H Hr Hs) as (s' & u & Z & Ss & Gs). inversion Z; subst s'; clear Z.
  pose proof H as H0. destruct H0 as [(EC & EF & EL' & ER & Ek) (P1 & P2 & P3 & P4 & P5) _ _]. subst C L Rn k. subst G.
  destruct (fact_index_k m Hm Hp Fo sc grp c N s HN Hsc Hc) as (t & Et & St & Gt); [rewrite EF; auto|].
  rewrite En in Et. rewrite Et in Ho. cbn [lift] in Ho. apply outcome_ret_inv in Ho. subst r. exists t, u. split; auto. split; [rewrite St, EF; auto|].
  split; [intros; apply Gs; auto|]. intros n ch f Hn Hch Hf. rewrite Gt by (rewrite ?EF; auto).
  assert (HG: (mv_out m <> 0)%nat) by nia.
  assert (Hl: (get (c_out c) [n; grp (get (c_rep c) [n]) (f mod mv_out m)%nat] < mv_L m)%nat).
  { apply Go; auto. apply Hsc; [apply Hc; auto|]. apply Nat.mod_upper_bound; auto. }
  pose proof (Nat.div_mod f (mv_k m) ltac:(lia)) as D. pose proof (Nat.mod_upper_bound f (mv_k m) ltac:(lia)).
  rewrite <- (proj2 (Gs n ch (f / mv_k m)%nat _ Hn Hch ltac:(apply Nat.div_lt_upper_bound; lia) Hl) (f mod mv_k m)%nat) by auto.
  do 2 f_equal. f_equal. f_equal. lia.
Qed.
Print Assumptions C34_select.

(** The same for MPE. *)
Theorem C34_select_modes : forall V C G L Rn k (m : mvleaf V) Fo sc grp c N,
  group_leaf C (G * k) L Rn k m -> (0 < N)%nat -> scopes_grp sc G Fo Rn grp -> cgood c N Fo L Rn ->
  exists t, mv_fact_sample m Fo sc c true = Ret t /\ shape t = [N; C; (G * k)%nat] /\
  forall n ch f, (n < N)%nat -> (ch < C)%nat -> (f < G * k)%nat ->
    get t [n; ch; f] = mv_mean m [ch; (f / k)%nat; get (c_out c) [n; grp (get (c_rep c) [n]) (f mod G)%nat]; get (c_rep c) [n]] (f mod k)%nat.
Proof.
  intros V C G L Rn k m Fo sc grp c N H HN Hsc Hc. destruct (exact_pad _ _ _ _ _ _ H) as [Hp EG]. pose proof (group_ok _ _ _ _ _ _ H) as Hm.
  assert (Hr: reps N Rn (c_rep c)) by (destruct Hc as (_ & _ & _ & A & B); split; auto).
  unfold mv_fact_sample. pose proof Hc as (En & _ & Go & _ & _). rewrite En.
  destruct (C34_modes _ _ _ _ _ _ m N _ H Hr) as (s & Es & Ss & Gs). rewrite Es. cbn [mbind].
  pose proof H as H0. destruct H0 as [(EC & EF & EL' & ER & Ek) (P1 & P2 & P3 & P4 & P5) _ _]. subst C L Rn k. subst G.
  destruct (fact_index_k m Hm Hp Fo sc grp c N s HN Hsc Hc) as (t & Et & St & Gt); [rewrite EF; auto|].
  rewrite En in Et. rewrite Et. cbn [lift]. exists t. split; auto. split; [rewrite St, EF; auto|].
  intros n ch f Hn Hch Hf. rewrite Gt by (rewrite ?EF; auto).
  assert (HG: (mv_out m <> 0)%nat) by nia.
  assert (Hl: (get (c_out c) [n; grp (get (c_rep c) [n]) (f mod mv_out m)%nat] < mv_L m)%nat).
  { apply Go; auto. apply Hsc; [apply Hc; auto|]. apply Nat.mod_upper_bound; auto. }
  pose proof (Nat.div_mod f (mv_k m) ltac:(lia)) as D. pose proof (Nat.mod_upper_bound f (mv_k m) ltac:(lia)).
  rewrite <- (Gs n ch (f / mv_k m)%nat _ (f mod mv_k m)%nat Hn Hch ltac:(apply Nat.div_lt_upper_bound; lia) Hl) by auto.
  do 2 f_equal. f_equal. f_equal. lia.
Qed.
Print Assumptions C34_select_modes.

(** So the whole vector of a group comes from the component selected for that group when there is one group or groups
    of one feature. *)
Theorem C34_select_partial : forall V C G L Rn k (m : mvleaf V) Fo sc grp c N supp r,
  group_leaf C (G * k) L Rn k m -> (0 < N)%nat -> scopes_grp sc G Fo Rn grp -> cgood c N Fo L Rn -> G = 1%nat \/ k = 1%nat ->
  outcome supp (mv_fact_sample m Fo sc c false) r ->
  exists t, r = Ok t /\ shape t = [N; C; (G * k)%nat] /\
  forall n ch g, (n < N)%nat -> (ch < C)%nat -> (g < G)%nat ->
    exists u, supp [ch; g; get (c_out c) [n; grp (get (c_rep c) [n]) g]; get (c_rep c) [n]] u /\
      forall j, (j < k)%nat -> get t [n; ch; (g * k + j)%nat] = u j.
Proof.
  intros V C G L Rn k m Fo sc grp c N supp r H HN Hsc Hc Hd Ho.
  destruct (C34_select _ _ _ _ _ _ m Fo sc grp c N supp r H HN Hsc Hc Ho) as (t & u & Er & St & Hu & Gt). exists t. split; auto. split; auto.
  intros n ch g Hn Hch Hg. assert (Hq: (get (c_rep c) [n] < Rn)%nat) by (apply Hc; auto).
  eexists. split; [apply Hu; auto; apply Hc; auto; apply Hsc; auto|]. intros j Hj.
  assert (Z: (g * k + j < G * k)%nat) by nia. rewrite Gt by auto.
  assert (Ed: ((g * k + j) / k = g)%nat) by (rewrite Nat.add_comm, Nat.div_add by lia; rewrite Nat.div_small; auto).
  assert (Em: ((g * k + j) mod k = j)%nat) by (rewrite Nat.add_comm, Nat.mod_add by lia; apply Nat.mod_small; auto).
  assert (EG: ((g * k + j) mod G = g)%nat).
  { destruct Hd as [-> | ->]; [rewrite Nat.mod_1_r; lia|]. replace j with 0%nat by lia. replace (g * 1 + 0)%nat with g by lia. apply Nat.mod_small; auto. }
  rewrite Ed, Em, EG. reflexivity.
Qed.
Print Assumptions C34_select_partial.

(** Otherwise it does not: whenever groups 0 and 1 lie in different blocks, some selection gives feature 1, which
    belongs to group 0, the mean of a component that was selected for another group. *)
Theorem C34_select_refuted : forall V C G L Rn k (m : mvleaf V) Fo sc grp,
  group_leaf C (G * k) L Rn k m -> (2 <= k)%nat -> (2 <= G)%nat -> (2 <= L)%nat -> scopes_grp sc G Fo Rn grp -> grp 0%nat 0%nat <> grp 0%nat 1%nat ->
  mv_mean m [0; 0; 0; 0]%nat 1%nat <> mv_mean m [0; 0; 1; 0]%nat 1%nat ->
  exists c t, cgood c 1 Fo L Rn /\ mv_fact_sample m Fo sc c true = Ret t /\
    get t [0; 0; 1]%nat <> mv_mean m [0%nat; (1 / k)%nat; get (c_out c) [0%nat; grp 0%nat (1 / k)%nat]; get (c_rep c) [0%nat]] (1 mod k)%nat.
Proof.
  intros V C G L Rn k m Fo sc grp H Hk HG HL Hsc Hg Hmean. pose proof H as [_ (P1 & P2 & P3 & P4 & P5) _ _].
  set (c := mkCtx 1 (mkT [1%nat; Fo] (fun idx => if (nth 1 idx 0 =? grp 0%nat 0%nat)%nat then 0%nat else 1%nat)) (mkT [1%nat] (fun _ => 0%nat)) true 1).
  assert (Hc: cgood c 1 Fo L Rn). { repeat split; auto. intros n d _ _. cbn [c c_out get]. destruct (_ =? _)%nat; lia. }
  destruct (C34_select_modes V C G L Rn k m Fo sc grp c 1 H ltac:(lia) Hsc Hc) as (t & Et & _ & Gt). exists c, t. split; auto. split; auto.
  rewrite Gt by nia. cbn [c c_out c_rep get nth]. rewrite (Nat.div_small 1 k), (Nat.mod_small 1 k), (Nat.mod_small 1 G) by lia.
  rewrite Nat.eqb_refl. destruct (Nat.eqb_spec (grp 0%nat 1%nat) (grp 0%nat 0%nat)); [congruence|]. congruence.
Qed.
Print Assumptions C34_select_refuted.

(** One repetition (FactorizedLeafSimple): only the first G of the G*k features are returned. *)
Theorem C34_single_repetition_refuted : forall V C G L k (m : mvleaf V) Fo pl c N,
  group_leaf C (G * k) L 1 k m -> (0 < Fo)%nat -> Permutation pl (seq 0 (G + simple_dummy G Fo)) -> cgood c N Fo L 1 ->
  (exists t, mv_simple_sample m Fo (vec (argsort pl)) c true = Ret t /\ shape t = [N; C; G]) /\
  (forall supp r, outcome supp (mv_simple_sample m Fo (vec (argsort pl)) c false) r -> exists t, r = Ok t /\ shape t = [N; C; G]) /\
  ((2 <= k)%nat -> (G < G * k)%nat).
Proof.
  intros V C G L k m Fo pl c N H HF Hpl Hc. destruct (exact_pad _ _ _ _ _ _ H) as [Hp EG]. pose proof (group_ok _ _ _ _ _ _ H) as Hm.
  assert (Hr: reps N 1 (c_rep c)) by (destruct Hc as (_ & _ & _ & A & B); split; auto).
  pose proof Hc as (En & _). pose proof H as H0. destruct H0 as [(EC & EF & EL' & ER & Ek) (P1 & P2 & P3 & P4 & P5) _ _].
  assert (Z: forall s, shape s = [N; C; (G * k)%nat; L] -> exists t, mv_simple_index m Fo (vec (argsort pl)) (c_n c) (c_out c) s = Ok t /\ shape t = [N; C; G]).
  { intros s Ss. subst C L k. subst G. destruct (simple_index_k m Hm Hp Fo pl c N 1 s HF Hpl Hc) as (t & Et & St & _); [rewrite EF; auto|]. eauto. }
  split; [|split].
  - unfold mv_simple_sample. destruct (C34_modes _ _ _ _ _ _ m N _ H Hr) as (s & Es & Ss & Gs). rewrite En in *. rewrite Es. cbn [mbind].
    destruct (Z s Ss) as (t & Et & St). rewrite Et. cbn [lift]. eauto.
  - intros supp r Ho. unfold mv_simple_sample in Ho. rewrite En in *. apply outcome_bind in Ho as [(e & Ho & _)|(s & Hs & Ho)].
    { destruct (C34_sample_all _ _ _ _ _ _ m N _ _ _ H Hr Ho) as (s & u & Q & _). discriminate. }
    destruct (C34_sample_all _ _ _ _ _ _ m N _ _ _ H Hr Hs) as (s' & u & Q & Ss & Gs). inversion Q; subst s'; clear Q.
    destruct (Z s Ss) as (t & Et & St). rewrite Et in Ho. cbn [lift] in Ho. apply outcome_ret_inv in Ho. eauto.
  - intros. nia.
Qed.
Print Assumptions C34_single_repetition_refuted.

(** * Networks *)
(** A network whose layers are built over the G groups, as EinetConfig does when the features fill the groups. *)
Definition group_net {V} (g : config) (o : oracle (nat -> V)) (E : einet (nat -> V)) (G k : nat) (m : mvleaf V) : Prop :=
  accepted g o E /\ leafE E = shell m /\ group_leaf (e_C E) (G * k) (e_L E) (e_R E) k m.

(** Top-down: complete data in all layouts; the likelihoods are those of the network over G features whose values are
    the vectors of the groups, so they are normalised over vectors whenever the group densities are. *)
Theorem C34_network_forward : forall V g o (E : einet (nat -> V)) G k m N x ms,
  group_net g o E G k m -> g_struct g = STopDown -> wshape (shape x) N (e_C E) (G * k) ->
  (forall n c f, (n < N)%nat -> (c < e_C E)%nat -> (f < G * k)%nat -> entry x n c f <> None) ->
  match ms with None => True | Some (b, s) => ((1 < k)%nat -> b = true) /\ forall f, In f s -> (f < G * k)%nat end ->
  exists y cs y', mv_einet_forward E m x ms = Ok (y, cs) /\
    forward E (grouped m N x) (match ms with None => None | Some (_, s) => Some (map (fun f => (f / k)%nat) s) end) = Ok y' /\ shape y = [N; e_K E] /\
    (forall n q, (n < N)%nat -> (q < e_K E)%nat -> get y [n; q] = get y' [n; q] /\ isfin (get y [n; q]) = true) /\
    (forall n c i j v, (n < N)%nat -> (c < e_C E)%nat -> (i < G)%nat -> (j < k)%nat -> entry x n c (i * k + j) = Some v ->
       exists u, get (grouped m N x) [n; c; i] = Some u /\ u j = v).
Proof.
  intros V g o E G k m N x ms (HA & El & H) Hs Hx Hf Hms. destruct (exact_pad _ _ _ _ _ _ H) as [Hp EG]. pose proof (group_ok _ _ _ _ _ _ H) as Hm.
  destruct H as [(EC & EF & EL' & ER & Ek) _ _ _]. pose proof (accepted_ok _ _ _ HA) as HE.
  destruct (mv_net_forward m Hm E HE El Hp N x ms) as (y & cs & y' & Ey & Ey' & Sy & Sy' & Gy).
  - rewrite EC, EF. auto.
  - rewrite EC, EF. auto.
  - rewrite EF, Ek. auto.
  - intros lf Z. pose proof (eo_ll E HE) as Hl. pose proof (top_down_perm g o E HA Hs) as Hpe. unfold leaf_layer_ok in Hl. rewrite Z, Hpe in Hl. exact Hl.
  - exists y, cs, y'. split; auto. split. { rewrite <- Ek. exact Ey'. } split; auto. split; auto.
    intros n c i j v Hn Hc Hi Hj Hv. cbn [grouped get]. eexists. split; [reflexivity|]. cbn beta. rewrite Ek, Hv. reflexivity.
Qed.
Print Assumptions C34_network_forward.

(** Bottom-up networks use the bare layer: the forward pass raises on all complete data. *)
Theorem C34_bottom_up_refuted : forall V (E : einet (nat -> V)) C G L Rn k m N x lf,
  group_leaf C (G * k) L Rn k m -> e_leaf E = LBase lf -> (2 <= k)%nat -> wshape (shape x) N C (G * k) ->
  (forall n c f, (n < N)%nat -> (c < C)%nat -> (f < G * k)%nat -> entry x n c f <> None) ->
  mv_einet_forward E m x None = Err AssertionError.
Proof.
  intros V E C G L Rn k m N x lf H Hb Hk Hx Hf. destruct (exact_pad _ _ _ _ _ _ H) as [Hp EG]. pose proof (group_ok _ _ _ _ _ _ H) as Hm.
  destruct H as [(EC & EF & EL' & ER & Ek) _ _ _].
  apply (mv_base_forward m Hm E Hp N x None) with (lf := lf); auto; rewrite ?EC, ?EF; auto. lia.
Qed.
Print Assumptions C34_bottom_up_refuted.

(** * Example: ten features in five pairs; within a pair the second value follows the first *)
Definition ex_pairs : mvleaf R :=
  mkMv 2 10 2 2 2 (fun key v => Fin (- ((v 0%nat - INR (nth 2 key 0%nat)) ^ 2 + (v 1%nat - v 0%nat) ^ 2))) (fun key j => INR (nth 2 key 0%nat)) 0.
Lemma ex_pairs_ok : group_leaf 2 (5 * 2) 2 2 2 ex_pairs.
Proof.
  split; try reflexivity.
  - repeat split; reflexivity.
  - repeat split; lia.
  - intros key u v H. cbn [ex_pairs mv_logp]. rewrite !H by lia. reflexivity.
Qed.
Definition ex_ten : tensor (option R) := mkT [1; 2; 10]%nat (fun idx => Some (INR (nth 2 idx 0%nat))).
(** Features 2 and 3 form group 1. *)
Example C34_forward_ex : exists y, mv_forward ex_pairs ex_ten None = Ok y /\ get y [0; 1; 1; 1; 0]%nat = Fin (-2).
Proof.
  destruct (C34_forward R 2 5 2 2 2 ex_pairs 1 ex_ten (fun n c f => INR f) ex_pairs_ok eq_refl) as (y & Ey & _ & Gy); [reflexivity|].
  exists y. split; auto. rewrite Gy by lia. cbn [ex_pairs mv_logp nth]. f_equal.
  change (1 * 2 + 0)%nat with 2%nat. change (1 * 2 + 1)%nat with 3%nat. simpl INR. lra.
Qed.
Example C34_features_ex : group_leaf 1 5 1 1 2 (mkMv 1 5 1 1 2 (fun _ _ => Fin 0) (fun _ _ => 0) 0) /\ (5 mod 2 <> 0)%nat.
Proof.
  split; [|discriminate]. split; try reflexivity; repeat split; lia.
Qed.
Definition ex_blocks : tensor nat := mkT [5; 4; 2]%nat (fun idx => match idx with [g; o; _] => if (g mod 4 =? o)%nat then 1%nat else 0%nat | _ => 0%nat end).
Lemma ex_blocks_ok : scopes_grp ex_blocks 5 4 2 (fun _ g => (g mod 4)%nat).
Proof. split; [reflexivity|]. split; [intros; apply Nat.mod_upper_bound; lia|]. intros r f o _ _ _. reflexivity. Qed.
Example C34_select_ex : exists c t, cgood c 1 4 2 2 /\ mv_fact_sample ex_pairs 4 ex_blocks c true = Ret t /\
  get t [0; 0; 1]%nat <> mv_mean ex_pairs [0%nat; (1 / 2)%nat; get (c_out c) [0%nat; (1 / 2) mod 4]%nat; get (c_rep c) [0%nat]] (1 mod 2)%nat.
Proof.
  apply (C34_select_refuted R 2 5 2 2 2 ex_pairs 4 ex_blocks (fun _ g => (g mod 4)%nat) ex_pairs_ok); try lia.
  - apply ex_blocks_ok.
  - discriminate.
  - cbn [ex_pairs mv_mean nth]. simpl. lra.
Qed.
Example C34_single_ex : let m := mkMv 1 4 2 1 2 (fun _ _ => Fin 0) (fun _ _ => 0) 0 in
  group_leaf 1 (2 * 2) 2 1 2 m /\ exists t, mv_simple_sample m 1 (vec (argsort [1; 0]%nat)) (mkCtx 3 (mkT [3; 1]%nat (fun _ => 1%nat)) (mkT [3]%nat (fun _ => 0%nat)) true 1) true = Ret t /\ shape t = [3; 1; 2]%nat.
Proof.
  intros m. assert (H: group_leaf 1 (2 * 2) 2 1 2 m) by (split; try reflexivity; repeat split; lia). split; auto.
  apply (C34_single_repetition_refuted R 1 2 2 2 m 1 [1; 0]%nat); auto.
  - cbn. apply perm_swap.
  - repeat split; cbn; lia.
Qed.
Definition ex_group_o : oracle (nat -> R) :=
  mkOracle (fun i idx => grow (i :: idx)) grow grow grow [1; 2; 1; 1]%nat ex_td_perm (fun F C L R => Ok (shell ex_pairs)).
Lemma ex_group_oracle : oracle_ok ex_td_g ex_group_o.
Proof.
  destruct ex_td_oracle as [O1 O2 O3 O4 O5 O6 O7]. split; auto. eexists. split; [reflexivity|]. split.
  - split; [reflexivity|]. intros. reflexivity.
  - cbn [shell lf_F lf_C lf_L lf_R ex_td_g plain g_F g_C g_L g_R]. rewrite !nval_nat. auto.
Qed.
Example C34_network_ex : exists E, group_net ex_td_g ex_group_o E 5 2 ex_pairs /\ g_struct ex_td_g = STopDown /\ wshape (shape ex_ten) 1 (e_C E) (5 * 2) /\
  exists y cs, mv_einet_forward E ex_pairs ex_ten None = Ok (y, cs) /\ shape y = [1; 3]%nat /\ isfin (get y [0; 2]%nat) = true.
Proof.
  destruct (build_succeeds ex_td_g ex_group_o) as (E & HE).
  - apply plain_valid; try lia; try lra; try congruence. simpl; lia.
  - reflexivity.
  - exact ex_group_oracle.
  - exists 0%R. split; [constructor|lra].
  - cbn [ex_td_g plain g_depth zval]. lia.
  - discriminate.
  - exists E. assert (A: accepted ex_td_g ex_group_o E) by (split; [reflexivity|exact ex_group_oracle|exact HE]).
    destruct (build_inv ex_td_g ex_group_o E eq_refl ex_group_oracle HE) as (HEo & EF & EC & ER & EK).
    cbn [ex_td_g plain g_F g_C g_R g_K] in *. rewrite nval_nat in *.
    assert (LE: leafE E = shell ex_pairs).
    { unfold build in HE. apply bind_ok in HE as ([] & _ & HE). cbn [ex_td_g plain g_struct] in HE. unfold build_top_down in HE.
      apply bind_ok in HE as (? & _ & HE). apply bind_ok in HE as (? & _ & HE). apply bind_ok in HE as (? & _ & HE).
      apply bind_ok in HE as (lf & Hl & HE). apply bind_ok in HE as (? & _ & HE). apply bind_ok in HE as (? & _ & HE).
      inversion HE. unfold leafE. cbn [e_leaf]. unfold build_input in Hl. cbn [ex_group_o o_leaf] in Hl.
      unfold ex_td_g, plain in Hl. cbn [g_F g_C g_L g_R] in Hl. rewrite !nval_nat in Hl. cbn [bind Nat.eqb] in Hl. inversion Hl. reflexivity. }
    assert (EL2: e_L E = 2%nat) by (rewrite <- (eo_lL E HEo); fold (leafE E); rewrite LE; reflexivity).
    assert (HN: group_net ex_td_g ex_group_o E 5 2 ex_pairs) by (split; [exact A|split; [exact LE|rewrite EC, EL2, ER; exact ex_pairs_ok]]).
    assert (W: wshape (shape ex_ten) 1 (e_C E) (5 * 2)) by (rewrite EC; right; left; reflexivity).
    split; [exact HN|]. split; [reflexivity|]. split; [exact W|].
    destruct (C34_network_forward R _ _ E 5 2 ex_pairs 1 ex_ten None HN eq_refl W) as (y & cs & y' & Ey & _ & Sy & Gy & _).
    + intros. unfold entry. cbn. discriminate.
    + exact I.
    + exists y, cs. rewrite EK in *. split; auto. split; auto. apply Gy; lia.
Qed.
Example C34_missing_ex : mv_forward ex_pairs (mkT [1; 2; 10]%nat (fun idx => if (nth 2 idx 0 =? 7)%nat then None else Some 0)) None = Err IndexErr.
Proof. apply (C34_missing_refuted R 2 5 2 2 2 ex_pairs 1 _ None 0 0 7 ex_pairs_ok); try lia; reflexivity. Qed.
Example C34_marginalized_ex : exists y, mv_forward ex_pairs ex_ten (Some (true, [3; 8]%nat)) = Ok y /\
  get y [0; 0; 1; 0; 0]%nat = Fin 0 /\ get y [0; 0; 0; 0; 0]%nat = Fin (-1).
Proof.
  destruct (C34_marginalized R 2 5 2 2 2 ex_pairs 1 ex_ten (fun n c f => INR f) [3; 8]%nat ex_pairs_ok) as (_ & y & Ey & _ & Gy); try lia; try reflexivity.
  { intros f [<-|[<-|[]]]; lia. }
  exists y. split; auto. split.
  - apply Gy; try lia. exists 1%nat. split; [lia|]. left. reflexivity.
  - destruct (Gy 0 0 0 0 0)%nat as [_ G]; try lia. rewrite G.
    + cbn [ex_pairs mv_logp nth]. change (0 * 2 + 0)%nat with 0%nat. change (0 * 2 + 1)%nat with 1%nat. simpl INR. f_equal. lra.
    + intros j Hj [Z|[Z|[]]]; lia.
Qed.
Example C34_bottom_up_ex : exists E : einet (nat -> R), e_leaf E = LBase (shell ex_pairs) /\ mv_einet_forward E ex_pairs ex_ten None = Err AssertionError.
Proof.
  destruct C34_network_ex as (E0 & _).
  set (E := mkE (e_F E0) (e_C E0) (e_L E0) (e_R E0) (e_K E0) (LBase (shell ex_pairs)) (e_perm E0) (e_layers E0) (e_mixing E0) (e_root E0)).
  exists E. split; [reflexivity|].
  apply (C34_bottom_up_refuted R E 2 5 2 2 2 ex_pairs 1 ex_ten (shell ex_pairs) ex_pairs_ok); auto.
  - right. left. reflexivity.
  - intros. unfold entry. cbn. discriminate.
Qed.
