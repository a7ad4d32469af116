(** The leaf layers compute products of leaf probabilities over groups of features. *)
From Coq Require Import List Arith Lia Bool Reals Lra Permutation.
Import ListNotations.
From Verif Require Import Base RSum Num Tensor Prob Layers Circuit Net RefFwd RefSample Leaf Perm.
Local Open Scope R_scope.
Local Arguments Nat.div : simpl never.
Local Arguments Nat.modulo : simpl never.
Local Arguments Nat.sub : simpl never.
Local Arguments Nat.mul : simpl never.
Local Arguments Nat.add : simpl never.
Local Arguments Nat.min : simpl never.
Local Arguments clamp : simpl never.
Local Arguments bdim : simpl never.

(** The product over the features of a group and over channels. *)
Definition gleaf (F C : nat) (grp : nat -> nat -> nat) (q : leaves) : vals := fun d l r =>
  rprod F (fun f => if Nat.eqb (grp r f) d then rprod C (fun c => q c f l r) else 1).

(** Probability (density) of the leaf at a batch position. *)
Definition pdf {V} (lf : bleaf V) : nat -> nat -> nat -> nat -> V -> R := fun c f l r v =>
  exp (toR (lf_logp lf [c; f; l; r] v)).

Definition in_ms (ms : option (list nat)) (f : nat) : bool :=
  match ms with None => false | Some s => existsb (Nat.eqb f) s end.
(** The data the network sees: entries in [marginalized_scopes] are missing. *)
Definition seen {V} (x : tensor (option V)) (ms : option (list nat)) (n : nat) : pdata V := fun c f =>
  if in_ms ms f then None else get x [n; c; f].

(** Log-probabilities are finite on the support and the NaN placeholder is in the support. *)
Definition leaf_ok {V} (lf : bleaf V) : Prop :=
  lf_supp lf (lf_zero lf) = true /\
  forall c f l r v, (c < lf_C lf)%nat -> (f < lf_F lf)%nat -> (l < lf_L lf)%nat -> (r < lf_R lf)%nat ->
    lf_supp lf v = true -> isfin (lf_logp lf [c; f; l; r] v) = true.

(** Data of the right shape, in the support; the marginalized scopes are features, and entries are
    missing only inside them when they are given. *)
Definition data_ok {V} (lf : bleaf V) (N : nat) (x : tensor (option V)) (ms : option (list nat)) : Prop :=
  shape x = [N; lf_C lf; lf_F lf] /\
  (forall n c f v, (n < N)%nat -> (c < lf_C lf)%nat -> (f < lf_F lf)%nat -> get x [n; c; f] = Some v -> lf_supp lf v = true) /\
  match ms with
  | None => True
  | Some s => (forall f, In f s -> (f < lf_F lf)%nat) /\
      forall n c f, (n < N)%nat -> (c < lf_C lf)%nat -> (f < lf_F lf)%nat -> ~ In f s -> get x [n; c; f] <> None
  end.

Lemma existsb_eqb_In f s : existsb (Nat.eqb f) s = true <-> In f s.
Proof.
  rewrite existsb_exists. split.
  - intros (x & Hx & E). apply Nat.eqb_eq in E. subst; auto.
  - intros H. exists f. split; auto. apply Nat.eqb_refl.
Qed.

Section Fwd.
Context {V : Type}.
Variable lf : bleaf V.
Hypothesis Hlf : leaf_ok lf.

Lemma pdf_pos c f l r v : 0 < pdf lf c f l r v.
Proof. apply exp_pos. Qed.
Lemma lval_pos (x : pdata V) c f l r : 0 < lval (pdf lf) x c f l r.
Proof. unfold lval. destruct (x c f); [apply pdf_pos|lra]. Qed.

Lemma base_forward_rep N x ms : data_ok lf N x ms ->
  exists t, base_forward lf x ms = Ok t /\ shape t = [N; lf_C lf; lf_F lf; lf_L lf; lf_R lf] /\
  forall n c f l r, (n < N)%nat -> (c < lf_C lf)%nat -> (f < lf_F lf)%nat -> (l < lf_L lf)%nat -> (r < lf_R lf)%nat ->
    get t [n; c; f; l; r] = Fin (ln (lval (pdf lf) (seen x ms n) c f l r)).
Proof.
  intros (Hs & Hsup & Hms). destruct x as [sx gx]; cbn [shape] in Hs; subst sx.
  unfold base_forward, dist_forward.
  set (x0 := tmap _ _). change (dim x0) with 3%nat. cbn [Nat.eqb].
  set (x1 := unsq_end 2 x0).
  assert (E1: shape x1 = [N; lf_C lf; lf_F lf; 1; 1]%nat) by reflexivity.
  assert (G1: forall n c f l r, get x1 [n; c; f; l; r] = match gx [n; c; f] with Some v => v | None => lf_zero lf end) by reflexivity.
  replace (forallb (fun idx => lf_supp lf (get x1 idx)) (all_idx (shape x1))) with true.
  2:{ symmetry. apply forallb_forall. intros idx Hidx. apply in_all_idx in Hidx. rewrite E1 in Hidx. inbs.
      rewrite G1. destruct (gx _) eqn:E; [|apply Hlf]. eapply Hsup; eauto. }
  cbn [guard bind].
  unfold bop. rewrite E1. cbn [shape]. unfold bshape. cbn [rev app bshape_rev].
  rewrite ?bdim_refl, ?bdim_1_l, ?bdim_1_r. cbn [option_map rev app bind].
  set (Y := mkT [N; lf_C lf; lf_F lf; lf_L lf; lf_R lf] _).
  assert (GY: forall n c f l r, (n < N)%nat -> (c < lf_C lf)%nat -> (f < lf_F lf)%nat -> (l < lf_L lf)%nat -> (r < lf_R lf)%nat ->
     get Y [n; c; f; l; r] = lf_logp lf [c; f; l; r] (match gx [n; c; f] with Some v => v | None => lf_zero lf end)).
  { intros. unfold Y. cbn [get]. rewrite !bproj_same by reflexivity. cbn [bidx]. rewrite G1. clamps. reflexivity. }
  assert (SY: shape Y = [N; lf_C lf; lf_F lf; lf_L lf; lf_R lf]) by reflexivity.
  clearbody Y x1 x0.
  set (hn := existsb _ _).
  match goal with |- context [bind (if hn then ?a else ?b) _] => assert (Z: exists y2, (if hn then a else b) = Ok y2
     /\ shape y2 = [N; lf_C lf; lf_F lf; lf_L lf; lf_R lf] /\
     forall n c f l r, (n < N)%nat -> (c < lf_C lf)%nat -> (f < lf_F lf)%nat -> (l < lf_L lf)%nat -> (r < lf_R lf)%nat ->
       get y2 [n; c; f; l; r] = match gx [n; c; f] with None => NaN | Some v => lf_logp lf [c; f; l; r] v end) end.
  { destruct hn eqn:Eh; subst hn.
    - rewrite SY. cbn [dim shape length firstn]. rewrite eqb_list_refl. cbn [guard bind]. eexists. split; [reflexivity|].
      split; [reflexivity|]. intros n c f l r Hn Hc Hf Hl Hr. cbn [get firstn]. rewrite GY by auto.
      destruct (gx [n; c; f]); reflexivity.
    - exists Y. split; auto. split; auto. intros n c f l r Hn Hc Hf Hl Hr. rewrite GY by auto.
      destruct (gx [n; c; f]) eqn:E; auto. exfalso.
      assert (existsb (fun idx => is_nan (gx idx)) (all_idx [N; lf_C lf; lf_F lf]) = true).
      { apply existsb_exists. exists [n; c; f]. split; [apply in_all_idx; simpl; auto|rewrite E; auto]. }
      cbn [shape get] in Eh. congruence. }
  destruct Z as (y2 & -> & S2 & G2). cbn [bind].
  unfold marginalize_input. destruct ms as [s|].
  - destruct Hms as [Hin Hno]. unfold size. rewrite S2. cbn [nth].
    replace (forallb (fun f => f <? lf_F lf)%nat s) with true.
    2:{ symmetry. apply forallb_forall. intros f Hf. apply Nat.ltb_lt. auto. }
    cbn [guard bind]. eexists. split; [reflexivity|]. split; [reflexivity|].
    intros n c f l r Hn Hc Hf Hl Hr. cbn [get nth]. unfold lval, seen, in_ms.
    destruct (existsb (Nat.eqb f) s) eqn:E; [rewrite ln_1; auto|].
    rewrite G2 by auto. cbn [get].
    assert (~ In f s) by (rewrite <- existsb_eqb_In; congruence).
    specialize (Hno n c f Hn Hc Hf H). cbn [get] in Hno. destruct (gx [n; c; f]) as [v|] eqn:Ev; [|congruence].
    unfold pdf. rewrite ln_exp. apply isfin_Fin. apply Hlf; auto. eapply Hsup; [| | |exact Ev]; auto.
  - eexists. split; [reflexivity|]. split; [exact S2|].
    intros n c f l r Hn Hc Hf Hl Hr. cbn [get nth]. unfold lval, seen, in_ms. cbn [get].
    rewrite G2 by auto. destruct (gx [n; c; f]) as [v|] eqn:Ev.
    + assert (F: isfin (lf_logp lf [c; f; l; r] v) = true) by (apply Hlf; auto; eapply Hsup; [| | |exact Ev]; auto).
      rewrite (isfin_Fin _ F). cbn [isnan]. unfold pdf. rewrite (isfin_Fin _ F). cbn [toR]. rewrite ln_exp. auto.
    + cbn [isnan]. rewrite ln_1. auto.
Qed.

Lemma ln_rprod n (g : nat -> R) : (forall i, (i < n)%nat -> 0 < g i) -> ln (rprod n g) = rsum n (fun i => ln (g i)).
Proof.
  induction n; intros H; [rewrite rprod_0, rsum_0; apply ln_1|].
  rewrite rprod_S, rsum_S, ln_mult, IHn; auto. apply rprod_pos; auto.
Qed.

(** Summing over channels. *)
Lemma channel_sum_rep N t (q : nat -> leaves) : shape t = [N; lf_C lf; lf_F lf; lf_L lf; lf_R lf] ->
  (forall n c f l r, 0 < q n c f l r) ->
  (forall n c f l r, (n < N)%nat -> (c < lf_C lf)%nat -> (f < lf_F lf)%nat -> (l < lf_L lf)%nat -> (r < lf_R lf)%nat ->
    get t [n; c; f; l; r] = Fin (ln (q n c f l r))) ->
  trep (tsum 1 t) N (lf_F lf) (lf_L lf) (lf_R lf) (fun n f l r => rprod (lf_C lf) (fun c => q n c f l r)).
Proof.
  intros Hs Hq Hg. split.
  - unfold tsum, reduce. cbn [shape]. rewrite Hs. reflexivity.
  - intros n f l r Hn Hf Hl Hr. split; [apply rprod_pos; intros; apply Hq|].
    unfold tsum, reduce. cbn [get insert_nth]. unfold size. rewrite Hs. cbn [nth].
    rewrite (nsum_fin _ _ (fun c => ln (q n c f l r))) by (intros; apply Hg; auto).
    f_equal. rewrite ln_rprod; auto.
Qed.
End Fwd.

(** * FactorizedLeaf.forward *)
(** The scope tensor is a partition of the features into groups. *)
Definition scopes_grp (sc : tensor nat) (F Fo Rn : nat) (grp : nat -> nat -> nat) : Prop :=
  shape sc = [F; Fo; Rn] /\
  (forall r f, (r < Rn)%nat -> (f < F)%nat -> (grp r f < Fo)%nat) /\
  forall r f o, (r < Rn)%nat -> (f < F)%nat -> (o < Fo)%nat ->
    get sc [f; o; r] = if Nat.eqb (grp r f) o then 1%nat else 0%nat.

(** The group the forward pass of a FactorizedLeaf uses: without grouping the features stay in place. *)
Definition fact_grp (F Fo : nat) (grp : nat -> nat -> nat) : nat -> nat -> nat := fun r f =>
  if Nat.eqb F Fo then f else grp r f.

Lemma fact_forward_rep {V} (lf : bleaf V) Fo sc grp N t (q : nat -> leaves) :
  scopes_grp sc (lf_F lf) Fo (lf_R lf) grp ->
  shape t = [N; lf_C lf; lf_F lf; lf_L lf; lf_R lf] -> (forall n c f l r, 0 < q n c f l r) ->
  (forall n c f l r, (n < N)%nat -> (c < lf_C lf)%nat -> (f < lf_F lf)%nat -> (l < lf_L lf)%nat -> (r < lf_R lf)%nat ->
    get t [n; c; f; l; r] = Fin (ln (q n c f l r))) ->
  exists y, fact_forward lf Fo sc t = Ok y /\
    trep y N Fo (lf_L lf) (lf_R lf) (fun n => gleaf (lf_F lf) (lf_C lf) (fact_grp (lf_F lf) Fo grp) (q n)).
Proof.
  intros (Hss & Hgl & Hg) Hs Hq Ht. pose proof (channel_sum_rep lf N t q Hs Hq Ht) as R.
  unfold fact_forward, fact_grp. destruct (Nat.eqb_spec (lf_F lf) Fo) as [E|E].
  - eexists. split; [reflexivity|]. rewrite <- E. eapply trep_ext; [exact R|].
    intros n Hn f l r Hf Hl Hr. unfold gleaf.
    rewrite (rprod_single (lf_F lf) f); auto; [rewrite Nat.eqb_refl; auto|].
    intros i Hi Hne. destruct (Nat.eqb_spec i f); [congruence|auto].
  - destruct R as [Rs Rg]. unfold einsum_scopes. rewrite Rs, Hss. rewrite eqb_list_refl. cbn [bind].
    unfold size. cbn [shape nth]. rewrite eqb_list_refl. cbn [assert guard bind]. eexists. split; [reflexivity|].
    split; [reflexivity|]. intros n o l r Hn Ho Hl Hr. cbn [get].
    assert (P: forall f, (f < lf_F lf)%nat -> 0 < (if Nat.eqb (grp r f) o then rprod (lf_C lf) (fun c => q n c f l r) else 1)).
    { intros f Hf. destruct (Nat.eqb _ _); [|lra]. apply rprod_pos. intros; apply Hq. }
    split; [apply rprod_pos; exact P|].
    rewrite (nsum_fin _ _ (fun f => ln (if Nat.eqb (grp r f) o then rprod (lf_C lf) (fun c => q n c f l r) else 1))).
    + unfold gleaf. rewrite ln_rprod by exact P. reflexivity.
    + intros f Hf. destruct (Rg n f l r Hn Hf Hl Hr) as [_ ->]. rewrite Hg by auto. cbn [nmul]. f_equal.
      destruct (Nat.eqb _ _); simpl; [ring|rewrite ln_1; ring].
Qed.

(** * FactorizedLeafSimple.forward *)
Lemma ceil_div_spec F Fo : (0 < Fo)%nat -> (F <= simple_card F Fo * Fo)%nat.
Proof.
  intros H. unfold simple_card, ceil_div. pose proof (Nat.div_mod (F + (Fo - 1)) Fo) as D.
  pose proof (Nat.mod_upper_bound (F + (Fo - 1)) Fo). lia.
Qed.
Lemma simple_total F Fo : (0 < Fo)%nat -> (F + simple_dummy F Fo = simple_card F Fo * Fo)%nat.
Proof. intros H. pose proof (ceil_div_spec F Fo H). unfold simple_dummy. lia. Qed.
Lemma simple_card_pos F Fo : (0 < Fo)%nat -> (0 < F)%nat -> (0 < simple_card F Fo)%nat.
Proof. intros H HF. pose proof (ceil_div_spec F Fo H). destruct (simple_card F Fo); lia. Qed.

(** The group of feature [f] in the forward pass: consecutive blocks of the permuted features. *)
Definition simple_grp (F Fo : nat) (pl : list nat) (f : nat) : nat := (nth f (argsort pl) 0 / simple_card F Fo)%nat.

Lemma rprod_perm n l (g : nat -> R) : is_perm l n -> rprod n (fun k => g (nth k l 0%nat)) = rprod n g.
Proof.
  intros H. unfold rprod. rewrite <- (lprod_perm g _ _ H).
  transitivity (lprod g (map (fun j => nth j l 0%nat) (seq 0 (length l)))); [|rewrite map_nth_seq; auto].
  rewrite lprod_map, (is_perm_length _ _ H). reflexivity.
Qed.

Lemma simple_group_prod F Fo pl o (w : nat -> R) : (0 < Fo)%nat -> (0 < F)%nat ->
  is_perm pl (F + simple_dummy F Fo) -> (o < Fo)%nat ->
  rprod (simple_card F Fo) (fun j => let f := nth (o * simple_card F Fo + j) pl 0%nat in if Nat.ltb f F then w f else 1) =
  rprod F (fun f => if Nat.eqb (simple_grp F Fo pl f) o then w f else 1).
Proof.
  intros HFo HF Hp Ho. pose proof (simple_total F Fo HFo) as T. pose proof (simple_card_pos F Fo HFo HF) as Hc.
  set (w' := fun f => if Nat.ltb f F then w f else 1).
  set (g := fun f => if Nat.eqb (simple_grp F Fo pl f) o then w' f else 1).
  transitivity (rprod (F + simple_dummy F Fo) g).
  - rewrite <- (rprod_perm _ pl g Hp). rewrite T, (Nat.mul_comm (simple_card F Fo)), rprod_mul.
    rewrite (rprod_single Fo o); auto.
    + apply rprod_ext. intros j Hj. unfold g, simple_grp. rewrite (argsort_left _ _ _ Hp).
      * rewrite Nat.div_add_l by lia. rewrite (Nat.div_small j) by auto. rewrite Nat.add_0_r, Nat.eqb_refl. reflexivity.
      * rewrite T. nia.
    + intros i Hi Hne. transitivity (rprod (simple_card F Fo) (fun _ => 1)); [|apply rprod_one].
      apply rprod_ext. intros j Hj. unfold g, simple_grp. rewrite (argsort_left _ _ _ Hp).
      * rewrite Nat.div_add_l by lia. rewrite (Nat.div_small j) by auto. rewrite Nat.add_0_r.
        destruct (Nat.eqb_spec i o); [congruence|auto].
      * rewrite T. nia.
  - rewrite rprod_add. rewrite <- (Rmult_1_r (rprod F (fun f => if Nat.eqb (simple_grp F Fo pl f) o then w f else 1))).
    f_equal.
    + apply rprod_ext. intros f Hf. unfold g, w'. destruct (Nat.ltb_spec f F); [auto|lia].
    + transitivity (rprod (simple_dummy F Fo) (fun _ => 1)); [|apply rprod_one].
      apply rprod_ext. intros j Hj. unfold g, w'. destruct (Nat.ltb_spec (F + j) F); [lia|]. destruct (Nat.eqb _ _); auto.
Qed.

Lemma pad_dummy_rep x N F dm L Rn (v : nat -> vals) : trep x N F L Rn v ->
  exists y, (if 0 <? dm then cat2 1 x (full [size x 0; dm; size x 2; size x 3] (Fin 0%R)) else Ok x)%nat = Ok y /\
    trep y N (F + dm) L Rn (fun n f l r => if Nat.ltb f F then v n f l r else 1).
Proof.
  intros [Hs Hg]. destruct (Nat.ltb_spec 0 dm).
  - unfold cat2, size. rewrite Hs. cbn [shape full nth set_nth]. rewrite eqb_list_refl. eexists. split; [reflexivity|].
    split; [reflexivity|]. intros n f l r Hn Hf Hl Hr. cbn [get nth set_nth].
    destruct (Nat.ltb_spec f F); [apply Hg; auto|]. rewrite ln_1. split; [lra|reflexivity].
  - exists x. split; auto. replace dm with 0%nat by lia. rewrite Nat.add_0_r. split; auto.
    intros n f l r Hn Hf Hl Hr. destruct (Nat.ltb_spec f F); [apply Hg; auto|lia].
Qed.

Lemma simple_forward_rep {V} (lf : bleaf V) Fo pl N t (q : nat -> leaves) : (0 < Fo)%nat -> (0 < lf_F lf)%nat ->
  lf_R lf = 1%nat -> is_perm pl (lf_F lf + simple_dummy (lf_F lf) Fo) ->
  shape t = [N; lf_C lf; lf_F lf; lf_L lf; lf_R lf] -> (forall n c f l r, 0 < q n c f l r) ->
  (forall n c f l r, (n < N)%nat -> (c < lf_C lf)%nat -> (f < lf_F lf)%nat -> (l < lf_L lf)%nat -> (r < lf_R lf)%nat ->
    get t [n; c; f; l; r] = Fin (ln (q n c f l r))) ->
  exists y, simple_forward lf Fo (vec pl) t = Ok y /\
    trep y N Fo (lf_L lf) (lf_R lf) (fun n => gleaf (lf_F lf) (lf_C lf) (fun _ => simple_grp (lf_F lf) Fo pl) (q n)).
Proof.
  intros HFo HF HR Hp Hs Hq Ht. pose proof (channel_sum_rep lf N t q Hs Hq Ht) as R.
  unfold simple_forward. set (dm := simple_dummy (lf_F lf) Fo) in *. set (cd := simple_card (lf_F lf) Fo).
  set (F := lf_F lf) in *. set (L := lf_L lf) in *.
  destruct (pad_dummy_rep _ _ _ dm _ _ _ R) as (y & Ey & Sy & Gy).
  unfold size in Ey |- *. rewrite Ey. cbn [bind].
  unfold index_dim, vec. cbn [shape]. rewrite (is_perm_length _ _ Hp).
  replace (forallb _ _) with true.
  2:{ symmetry. apply forallb_forall. intros i Hi. apply in_seq0 in Hi. cbn [get hd]. unfold size. rewrite Sy. cbn [nth].
      apply Nat.ltb_lt. eapply is_perm_lt; eauto. }
  rewrite Sy. cbn [set_nth bind shape nth].
  unfold view. cbn [shape].
  assert (En: (F + dm = cd * Fo)%nat) by (apply simple_total; auto).
  replace (numel [N; Fo; cd; L; lf_R lf] =? numel [N; (F + dm)%nat; L; lf_R lf])%nat with true.
  2:{ symmetry. apply Nat.eqb_eq. cbn [numel]. rewrite En. ring. }
  cbn [bind]. unfold tsum, reduce. cbn [shape remove_nth]. unfold size. cbn [shape nth].
  rewrite HR, eqb_list_refl. cbn [assert guard bind]. eexists. split; [reflexivity|].
  split; [reflexivity|]. intros n o l r Hn Ho Hl Hr. cbn [get].
  assert (P: forall f, (f < F)%nat -> 0 < (if Nat.eqb (simple_grp F Fo pl f) o then rprod (lf_C lf) (fun c => q n c f l r) else 1)).
  { intros f Hf. destruct (Nat.eqb _ _); [|lra]. apply rprod_pos. intros; apply Hq. }
  split; [apply rprod_pos; exact P|].
  unfold gleaf. rewrite <- (simple_group_prod F Fo pl o (fun f => rprod (lf_C lf) (fun c => q n c f l r))) by auto.
  rewrite ln_rprod.
  2:{ intros j Hj. cbv zeta. match goal with |- 0 < (if ?b then _ else _) => destruct b end; [apply rprod_pos; intros; apply Hq|lra]. }
  apply nsum_fin. intros j Hj. cbn [insert_nth].
  assert (Ho': (o * cd + j < F + dm)%nat).
  { rewrite En. fold cd in Hj. nia. }
  assert (Er: ravel [N; Fo; cd; L; 1%nat] [n; o; j; l; r] = ravel [N; (F + dm)%nat; L; 1%nat] [n; (o * cd + j)%nat; l; r]).
  { cbn [ravel numel]. rewrite En. ring. }
  rewrite Er, unravel_ravel by (cbn [inb]; lia). cbn [nth set_nth hd].
  rewrite HR in *.
  destruct (Gy n (nth (o * cd + j) pl 0%nat) l r) as [_ G]; auto.
  { eapply is_perm_lt; eauto. }
Qed.
