(** Mixtures of convolutional circuits: groups of rows put back together. *)
From Coq Require Import List Arith Lia Bool ZArith Reals Lra Permutation.
Import ListNotations.
From Verif Require Import Base RSum Num Tensor Prob Layers Circuit Net RefFwd RefSample RefLaw Leaf RefLeaf TypeChecks Einet RefEinet RefEinetS Build RefBuild Spec RefSpec Mixture RefMixture RefMixLaw
  ConvPc RefConv RefConvNet RefConvS RefConvD ConvMix.
Local Open Scope R_scope.
Local Arguments Nat.div : simpl never. Local Arguments Nat.modulo : simpl never. Local Arguments Nat.sub : simpl never.
Local Arguments Nat.mul : simpl never. Local Arguments Nat.add : simpl never.

Lemma put_length {A} c (s : A) l : length (put c s l) = length l.
Proof. revert c. induction l as [|a l IH]; intros [|c]; cbn; auto. Qed.
Lemma put_same {A} c (s d : A) l : (c < length l)%nat -> nth c (put c s l) d = s.
Proof. revert c. induction l as [|a l IH]; intros [|c]; cbn; auto; intros; try lia. apply IH. lia. Qed.
Lemma put_other {A} c c' (s d : A) l : c <> c' -> nth c' (put c s l) d = nth c' l d.
Proof. revert c c'. induction l as [|a l IH]; intros [|c] [|c'] H; cbn; auto; try congruence. Qed.
Lemma put_id {A} c (d : A) l : put c (nth c l d) l = l.
Proof. revert c. induction l as [|a l IH]; intros [|c]; cbn; auto. rewrite IH. reflexivity. Qed.

(** * Free samples *)
Section Free.
Context {V X HT : Type}.
Variable comp : nat -> nat -> M V (tensor X).
Variable cs : list nat.
Variable s : list nat.
Definition free_rows : M V (tensor X) :=
  parts <~ draws (map (fun '(c, idxs) => comp c (length idxs)) (separate 0 cs [])) ;;
  lift (_ <- cat_rows parts ;; perm <- permutation_of cs ;; all <- cat_rows parts ;; permuted perm all).

(** Rows with a property of their component. *)
Lemma free_rows_ok (supp : list nat -> V -> Prop) (Q : nat -> tensor X -> Prop) : cs <> [] ->
  (forall c t u, In c cs -> shape u = shape t -> (forall idx, get u idx = get t idx) -> Q c t -> Q c u) ->
  (forall c k r, In c cs -> (0 < k)%nat -> outcome supp (comp c k) r -> exists t, r = Ok t /\ shape t = k :: s /\ forall i, (i < k)%nat -> Q c (trow t i)) ->
  forall r, outcome supp free_rows r -> exists t, r = Ok t /\ shape t = length cs :: s /\
    forall n, (n < length cs)%nat -> Q (source cs n) (trow t n).
Proof.
  intros Hcs HQ HC r Ho. unfold free_rows in Ho. set (groups := separate 0 cs []) in *.
  assert (HG: forall c idxs, In (c, idxs) groups -> In c cs /\ (0 < length idxs)%nat).
  { intros c idxs Hin. destruct (groups_in _ _ _ Hin) as [Hne Hj]. destruct idxs as [|j l]; [contradiction|]. split; [|cbn; lia]. eapply nth_error_In, (Hj j). left. auto. }
  set (D := fun '((c, idxs) : nat * list nat) => comp c (length idxs)) in *. fold D in Ho.
  assert (HD: forall r, outcome supp (draws (map D groups)) r -> exists parts, r = Ok parts /\
     Forall2 (fun c u => shape u = s /\ Q c u) (comps groups) (flat_map unstack parts)).
  { clear Ho r. unfold comps. induction groups as [|[c idxs] l IH]; intros r Ho; cbn [map draws flat_map] in *.
    - apply outcome_ret_inv in Ho. exists []. split; auto. constructor.
    - destruct (HG c idxs (or_introl eq_refl)) as [Hc Hk].
      apply outcome_bind in Ho as [(e & Ho & ->)|(a & Ha & Ho)].
      { destruct (HC c _ _ Hc Hk Ho) as (t & Z & _). discriminate. }
      destruct (HC c _ _ Hc Hk Ha) as (t & Z & St & Qt). injection Z as <-.
      apply outcome_bind in Ho as [(e & Ho & ->)|(xs & Hx & Ho)].
      { destruct (IH (fun c i H => HG c i (or_intror H)) _ Ho) as (p & Z & _). discriminate. }
      destruct (IH (fun c i H => HG c i (or_intror H)) _ Hx) as (p & Z & Fp). injection Z as <-.
      apply outcome_ret_inv in Ho. exists (a :: xs). split; [congruence|]. cbn [flat_map]. apply Forall2_app; auto.
      unfold unstack. rewrite St. cbn [hd].
      assert (GEN: forall j, (j + (length idxs - j) = length idxs)%nat -> Forall2 (fun c u => shape u = s /\ Q c u) (repeat c (length idxs - j)) (map (trow a) (seq j (length idxs - j)))).
      { intros j. remember (length idxs - j)%nat as m eqn:Em. revert j Em. induction m as [|m IHm]; intros j Em Hj; cbn [repeat seq map]; constructor.
        - cbn [trow shape]. rewrite St. cbn [tl]. split; auto. apply Qt. lia.
        - apply IHm; lia. }
      specialize (GEN 0%nat). rewrite Nat.sub_0_r in GEN. apply GEN. lia. }
  apply outcome_bind in Ho as [(e & Ho & ->)|(parts & Hp & Ho)].
  { destruct (HD _ Ho) as (p & Z & _). discriminate. }
  destruct (HD _ Hp) as (p & Z & FP). injection Z as <-. clear HD Hp.
  destruct (permutation_of_any cs Hcs) as (perm & Ep & Pp).
  assert (LC: length (comps groups) = length cs) by (apply Permutation_length, comps_perm).
  assert (LP: length perm = length cs) by (rewrite (Permutation_length Pp); apply seq_length).
  assert (LR: length (flat_map unstack parts) = length cs) by (rewrite <- LC; symmetry; eapply Forall2_len; eauto).
  destruct (stack_ok (flat_map unstack parts) s) as (all & Ea & Sa & Ga).
  { intros Z. rewrite Z in LR. destruct cs; [contradiction|discriminate]. }
  { intros t Ht. apply In_nth with (d := t) in Ht as (i & Hi & <-). rewrite LR, <- LC in Hi. apply (Forall2_nth _ _ _ 0%nat t i FP Hi). }
  rewrite LR in Sa, Ga.
  assert (Hperm: forall j, (j < length cs)%nat -> (nth j perm 0 < length cs)%nat).
  { intros j Hj. assert (Hin: In (nth j perm 0%nat) (seq 0 (length cs))) by (eapply Permutation_in; [exact Pp|apply nth_In; lia]). apply in_seq in Hin. lia. }
  destruct (permuted_ok perm all (length cs) s LP Sa Hperm) as (y & Ey & Sy & Gy).
  unfold cat_rows in Ho. rewrite Ea in Ho. cbn [bind] in Ho. rewrite Ep in Ho. cbn [bind] in Ho. rewrite Ey in Ho. cbn [lift] in Ho.
  apply outcome_ret_inv in Ho. exists y. split; auto. split; auto. intros n Hn. unfold source. rewrite Ep. fold groups.
  pose proof (Hperm n Hn) as Hn'. set (d0 := mkT [] (fun _ => get all []) : tensor X).
  destruct (Forall2_nth _ _ _ 0%nat d0 (nth n perm 0%nat) FP ltac:(lia)) as [S1 Q1].
  eapply HQ; [| | |exact Q1].
  - eapply Permutation_in; [apply comps_perm|]. apply nth_In. fold groups. lia.
  - cbn [trow shape]. rewrite Sy. cbn [tl]. auto.
  - intros idx. cbn [trow get]. rewrite Gy by auto. apply Ga. auto.
Qed.

(** The joint law. *)
Variable EL : list nat -> (V -> R) -> R.
Hypothesis HEL : leaf_expectation EL.
Variable x0 : X.
Variable RT : HT -> tensor X -> R.
Variable G : nat -> HT -> R.
Hypothesis HRT : forall h t u, shape u = shape t -> (forall idx, get u idx = get t idx) -> RT h u = RT h t.
Lemma free_rows_law : cs <> [] ->
  (forall c k, In c cs -> (0 < k)%nat -> (forall t, outcome (fun _ _ => True) (comp c k) (Ok t) -> shape t = k :: s) /\
     forall h : nat -> HT, expect EL (comp c k) (fun t => rprod k (fun n => RT (h n) (trow t n))) = rprod k (fun n => G c (h n))) ->
  forall h : nat -> HT, expect EL free_rows (fun t => rprod (length cs) (fun n => RT (h n) (trow t n))) = rprod (length cs) (fun n => G (source cs n) (h n)).
Proof.
  intros Hcs HC h. set (N := length cs). unfold free_rows. set (groups := separate 0 cs []).
  set (D := fun '((c, idxs) : nat * list nat) => comp c (length idxs)).
  destruct (permutation_of_any cs Hcs) as (perm & Ep & Pp). fold N in Pp.
  destruct (rprod_reindex N perm Pp) as (q & Hq & RI).
  assert (LC: length (comps groups) = N) by (apply Permutation_length, comps_perm).
  assert (LP: length perm = N) by (rewrite (Permutation_length Pp); apply seq_length).
  assert (N0: (0 < N)%nat) by (unfold N; destruct cs; [contradiction|cbn; lia]).
  assert (HG: forall c idxs, In (c, idxs) groups -> In c cs /\ (0 < length idxs)%nat).
  { intros c idxs Hin. destruct (groups_in _ _ _ Hin) as [Hne Hj]. destruct idxs as [|j l]; [contradiction|]. split; [|cbn; lia]. eapply nth_error_In, (Hj j). left. auto. }
  set (d0 := mkT [] (fun _ => x0) : tensor X). set (cl := fun '((c, idxs) : nat * list nat) => repeat c (length idxs)).
  assert (HB: forall b, In b groups ->
    (forall a, outcome (fun _ _ => True) (D b) (Ok a) -> length (unstack a) = length (cl b) /\ forall u, In u (unstack a) -> shape u = s) /\
    forall h : nat -> HT, expect EL (D b) (fun a => iprod d0 (fun i => RT (h i)) (unstack a)) = iprod 0%nat (fun i c => G c (h i)) (cl b)).
  { intros [c idxs] Hin. destruct (HG c idxs Hin) as [Hc Hk]. destruct (HC c (length idxs) Hc Hk) as [Sh Lw]. unfold D, cl. split.
    - intros a Ha. specialize (Sh a Ha). rewrite repeat_length. unfold unstack. rewrite map_length, seq_length, Sh. split; auto.
      intros u Hu. apply in_map_iff in Hu as (j & <- & _). cbn [trow shape]. rewrite Sh. reflexivity.
    - intros h0. rewrite iprod_repeat. rewrite <- Lw. apply expect_ext_outcome; auto. intros t Ht. specialize (Sh t Ht).
      unfold iprod, unstack. rewrite map_length, seq_length, Sh. cbn [hd]. apply rprod_ext. intros n Hn0. rewrite nth_map_seq by auto. reflexivity. }
  rewrite expect_bind by auto.
  transitivity (expect EL (draws (map D groups)) (fun parts => iprod d0 (fun j => RT (h (q j))) (flat_map unstack parts))).
  - apply expect_ext_outcome; auto. intros parts Ho.
    assert (HP: length (flat_map unstack parts) = N /\ forall u, In u (flat_map unstack parts) -> shape u = s).
    { rewrite <- LC. clear -Ho HB. revert parts Ho. unfold comps. induction groups as [|b l IH]; intros parts Ho; cbn [map draws] in Ho.
      - apply outcome_ret_inv in Ho. assert (parts = []) as -> by congruence. split; [reflexivity|intros ? []].
      - apply outcome_bind in Ho as [(e & _ & Z)|(a & Ha & Ho)]; [discriminate|].
        apply outcome_bind in Ho as [(e & _ & Z)|(xs & Hx & Ho)]; [discriminate|]. apply outcome_ret_inv in Ho.
        assert (parts = a :: xs) as -> by congruence. destruct (IH (fun b' H' => HB b' (or_intror H')) xs Hx) as [I1 I2].
        destruct (HB b (or_introl eq_refl)) as [B1 _]. destruct (B1 a Ha) as [B2 B3]. cbn [flat_map]. rewrite !app_length. split; [unfold cl in *; congruence|].
        intros u Hu. apply in_app_or in Hu as [Hu|Hu]; auto. }
    destruct HP as [LR HS].
    destruct (stack_ok (flat_map unstack parts) s) as (all & Ea & Sa & Ga); auto.
    { intros Z. rewrite Z in LR. cbn in LR. lia. }
    rewrite LR in Sa, Ga.
    assert (Hp: forall j, (j < N)%nat -> (nth j perm 0 < N)%nat).
    { intros j Hj. assert (Hin: In (nth j perm 0%nat) (seq 0 N)) by (eapply Permutation_in; [exact Pp|apply nth_In; lia]). apply in_seq in Hin. lia. }
    destruct (permuted_ok perm all N s LP Sa Hp) as (y & Ey & Sy & Gy).
    unfold cat_rows. rewrite Ea. cbn [bind]. rewrite Ep. cbn [bind]. rewrite Ey. cbn [lift expect].
    unfold iprod. rewrite LR. rewrite <- (RI (fun n j => RT (h n) (nth j (flat_map unstack parts) d0))).
    apply rprod_ext. intros n Hn. pose proof (Hp n Hn) as Hn'. apply HRT.
    + cbn [trow shape]. rewrite Sy. cbn [tl]. symmetry. apply HS, nth_In. lia.
    + intros idx. cbn [trow get]. rewrite Gy by auto. apply Ga. auto.
  - rewrite (draws_rows EL HEL D d0 RT unstack cl G groups).
    + change (flat_map cl groups) with (comps groups). unfold iprod. rewrite LC. rewrite <- (RI (fun n j => G (nth j (comps groups) 0%nat) (h n))).
      apply rprod_ext. intros n _. unfold source. rewrite Ep. reflexivity.
    + intros b Hb. destruct (HB b Hb) as [B1 B2]. split; [intros a Ha; apply (B1 a Ha)|exact B2].
Qed.
End Free.

(** * One component *)
(** A test of one image: a function of every pixel of every channel. *)
Definition itest : Type := nat -> nat -> num -> R.
Definition image_value (C H W : nat) (h : itest) (t : tensor num) : R :=
  rprod C (fun c => rprod (H * W) (fun f => h c f (get t [c; f / W; f mod W]%nat))).
Lemma image_value_ext C H W h t u : shape u = shape t -> (forall idx, get u idx = get t idx) -> image_value C H W h u = image_value C H W h t.
Proof. intros _ E. unfold image_value. apply rprod_ext. intros c _. apply rprod_ext. intros f _. rewrite E. reflexivity. Qed.
Definition sums_at {V} (k : nat) (T : R) : cargs := @mkCA V (Some k) None false false false T.

Lemma conv_rows {V} (P : convpc V) us (HP : conv_ok P us) EL (HEL : leaf_expectation EL) val st k T : st_on st = false -> lf_ctx (cp_leaf P) = true -> T <> 0 ->
  (forall t, outcome (fun _ _ => True) (snd (conv_sample P val st (sums_at k T))) (Ok t) -> shape t = [k; cp_C P; cp_H P; cp_W P]) /\
  forall h : nat -> itest, expect EL (snd (conv_sample P val st (sums_at k T))) (fun t => rprod k (fun n => image_value (cp_C P) (cp_H P) (cp_W P) (h n) (trow t n))) =
    rprod k (fun n => expect EL (snd (conv_sample P val st (sums_at 1 T))) (fun t => image_value (cp_C P) (cp_H P) (cp_W P) (h n) (trow t 0))).
Proof.
  intros Hst Hctx HT. cbn [conv_sample sums_at ca_num ca_ev snd].
  assert (EV: live P st = map (fun _ => None) (cp_layers P)) by (unfold live; rewrite Hst; auto).
  assert (K: forall N (h : nat -> itest), exists X : itest -> R, (forall supp r, outcome supp (conv_free P val st (sums_at N T) N) r -> exists t, r = Ok t /\ shape t = [N; cp_C P; cp_H P; cp_W P]) /\
     expect EL (conv_free P val st (sums_at N T) N) (fun t => rprod N (fun n => image_value (cp_C P) (cp_H P) (cp_W P) (h n) (trow t n))) =
     rprod N (fun n => evals (us T) (vmul (fun d l r => rprod (cp_C P) (fun c => EL [c; d; l; r] (fun x => h n c d (Fin (val x))))) (fun _ _ _ => 1)) 0%nat 0%nat 0%nat /
       evals (us T) (fun _ _ _ => 1) 0%nat 0%nat 0%nat)).
  { intros N h. exists (fun _ => 0). pose proof (clays_law_off EL HEL _ _ _ _ _ _ _ _ T N (co_clays _ _ HP) HT) as HLL. rewrite <- EV in HLL.
    exact (conv_free_law P us HP EL HEL val st (sums_at N T) N _ _ (fun n c f x => h n c f x) Hctx eq_refl eq_refl eq_refl HLL). }
  split.
  - intros t Ht. destruct (K k (fun _ _ _ _ => 0)) as (_ & O & _). destruct (O _ _ Ht) as (t' & E & S). injection E as ->. exact S.
  - intros h. destruct (K k h) as (_ & _ & X). etransitivity; [exact X|]. apply rprod_ext. intros n Hn. destruct (K 1%nat (fun _ => h n)) as (_ & _ & X1).
    rewrite rprod_S, rprod_0, Rmult_1_l in X1. rewrite <- X1. apply expect_ext; auto. intros t. rewrite rprod_S, rprod_0. ring.
Qed.

(** A batch made of some of the rows of another one. *)
Lemma sub_images {V} (P : convpc V) N x idxs t : images P N x -> idxs <> [] -> (forall j, In j idxs -> (j < N)%nat) -> stack (map (trow x) idxs) = Ok t ->
  images P (length idxs) t /\ forall i c h w, (i < length idxs)%nat -> get t [i; c; h; w] = get x [nth i idxs 0%nat; c; h; w].
Proof.
  intros [Sx Hx] Hne Hlt Et.
  destruct (stack_ok (map (trow x) idxs) (tl (shape x))) as (t' & Et' & St & Gt).
  { destruct idxs; [contradiction|discriminate]. }
  { intros u Hu. apply in_map_iff in Hu as (j & <- & _). reflexivity. }
  rewrite Et in Et'. injection Et' as <-. rewrite map_length in St, Gt.
  assert (G: forall i c h w, (i < length idxs)%nat -> get t [i; c; h; w] = get x [nth i idxs 0%nat; c; h; w]).
  { intros i c h w Hi. rewrite (Gt i [c; h; w] (trow x 0) Hi). rewrite map_nth. reflexivity. }
  split; auto. split; [rewrite St, Sx; reflexivity|]. intros n c h w v Hn Hc Hh Hw Hv. rewrite G in Hv by auto. eapply Hx; eauto. apply Hlt, nth_In. auto.
Qed.
Definition cvalue {V} (P : convpc V) us (x : tensor (option V)) (n : nat) : R := ln (neteval (conv_net P us 1) (lval (pdf (cp_leaf P)) (image P x n)) 0).

Lemma cm_parts_ok {V} (Ps : list (convpc V)) (usf : convpc V -> R -> list ulayer) x N : (forall P, In P Ps -> conv_ok P (usf P)) -> (forall P, In P Ps -> images P N x) ->
  (forall P, In P Ps -> (0 < cp_W P)%nat) ->
  forall groups sts, (forall c idxs, In (c, idxs) groups -> (c < length Ps)%nat /\ idxs <> [] /\ forall j, In j idxs -> (j < N)%nat) ->
  exists sts' parts, cm_parts Ps x groups sts = (sts', Ok parts) /\ length sts' = length sts /\
    ((forall st, In st sts -> st_on st = false) -> length sts = length Ps -> sts' = sts) /\
    Forall2 (fun g part => map fst part = snd g /\ forall i r, In (i, r) part ->
      shape r = [] /\ exists P, nth_error Ps (fst g) = Some P /\ get r [] = Fin (cvalue P (usf P) x i)) groups parts.
Proof.
  intros HP Hx HW. induction groups as [|[c idxs] groups IH]; intros sts HG; cbn [cm_parts].
  { exists sts, []. auto. }
  destruct (HG c idxs (or_introl eq_refl)) as (Hc & Hne & Hlt).
  destruct (nth_error Ps c) as [P|] eqn:En; [|apply nth_error_None in En; lia]. pose proof (nth_error_In _ _ En) as Ein.
  destruct (stack_ok (map (trow x) idxs) (tl (shape x))) as (t & Et & _).
  { destruct idxs; [contradiction|discriminate]. }
  { intros u Hu. apply in_map_iff in Hu as (j & <- & _). reflexivity. }
  destruct (sub_images P N x idxs t (Hx P Ein) Hne Hlt Et) as [It Gt].
  rewrite Et. cbn [bind]. unfold conv_component. rewrite En. cbn [bind].
  destruct (conv_forward_ok P (usf P) (HP P Ein) (state_of P sts c) _ t It) as (cas & y & Ey & Sy & _ & Gy). rewrite Ey.
  destruct (IH (put c (store (state_of P sts c) cas) sts)) as (sts' & parts & Ep & L' & Off & FP).
  { intros c' idxs' Hin. apply HG. right. auto. }
  rewrite Ep. cbn [bind]. exists sts', (combine idxs (unstack y) :: parts). split; auto. split; [rewrite L'; apply put_length|]. split.
  - intros Hst HL. assert (E0: put c (store (state_of P sts c) cas) sts = sts).
    { unfold store. replace (st_on (state_of P sts c)) with false; [apply put_id|]. symmetry. apply Hst. apply nth_In. lia. }
    rewrite E0 in Off. apply Off; auto.
  - constructor; auto. cbn [fst snd].
    assert (LU: length idxs = length (unstack y)) by (unfold unstack; rewrite map_length, seq_length, Sy; reflexivity).
    split; [apply map_fst_combine; auto|]. intros i r Hir.
    destruct (in_combine_nth idxs (unstack y) i r 0%nat (trow y 0) LU Hir) as (p & Hp & E1 & E2).
    unfold unstack in E2. rewrite map_nth in E2. rewrite seq_nth in E2 by (rewrite Sy; auto). cbn [plus] in E2. subst r.
    cbn [trow shape get]. rewrite Sy. split; auto. exists P. split; auto. rewrite Gy by auto. unfold cvalue. do 2 f_equal.
    apply neteval_ext; [apply conv_net_wf; auto|cbn; lia|]. intros c0 f l r _ Hf _ _. unfold lval, image. rewrite Gt by auto. rewrite Nat.add_0_l, E1. reflexivity.
Qed.
Theorem cm_forward_ok {V} (Ps : list (convpc V)) (usf : convpc V -> R -> list ulayer) predict sts x ms N : (forall P, In P Ps -> conv_ok P (usf P)) -> (forall P, In P Ps -> images P N x) ->
  (forall P, In P Ps -> (0 < cp_W P)%nat) -> (0 < N)%nat -> length (predict x ms) = N -> (forall c, In c (predict x ms) -> (c < length Ps)%nat) ->
  exists sts' y, cm_forward Ps predict sts x ms = (sts', Ok y) /\ shape y = [N] /\ length sts' = length sts /\
    ((forall st, In st sts -> st_on st = false) -> length sts = length Ps -> sts' = sts) /\
    forall n, (n < N)%nat -> exists P, nth_error Ps (nth n (predict x ms) 0%nat) = Some P /\ get y [n] = Fin (cvalue P (usf P) x n).
Proof.
  intros HP Hx HW HN HL Hc. unfold cm_forward. set (cs := predict x ms) in *. set (groups := separate 0 cs []).
  assert (HG: forall c idxs, In (c, idxs) groups -> (c < length Ps)%nat /\ idxs <> [] /\ forall j, In j idxs -> (j < N)%nat).
  { intros c idxs Hin. destruct (groups_in _ _ _ Hin) as [Hne Hj]. split; [|split; auto].
    - destruct idxs as [|j l]; [contradiction|]. apply Hc. eapply nth_error_In, (Hj j). left. auto.
    - intros j Hij. rewrite <- HL. apply nth_error_Some. rewrite (Hj j Hij). discriminate. }
  destruct (cm_parts_ok Ps usf x N HP Hx HW groups sts HG) as (sts' & parts & Ep & L' & Off & FP). rewrite Ep. cbn [bind].
  set (Q := fun c i (r : tensor num) => shape r = [] /\ exists P, nth_error Ps c = Some P /\ get r [] = Fin (cvalue P (usf P) x i)).
  destruct (collected groups parts Q FP) as [Hfst HQ].
  destruct (reassemble (concat parts) N []) as (y & Ey & Sy & Gy); auto.
  { rewrite Hfst. unfold groups. rewrite <- HL. apply groups_flat. }
  { intros i r Hi. destruct (HQ i r Hi) as (c & idxs & _ & _ & Hs & _). auto. }
  exists sts', y. split; [rewrite Ey; reflexivity|]. split; auto. split; auto. split; auto. intros n Hn. destruct (Gy n Hn) as (r & Hr & Hg).
  destruct (HQ n r Hr) as (c & idxs & Hgr & Hi & _ & P & E1 & E2). exists P.
  destruct (groups_in _ _ _ Hgr) as [_ Hj]. rewrite (nth_error_nth cs n 0%nat (Hj n Hi)). rewrite Hg. auto.
Qed.
