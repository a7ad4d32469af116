(** The sampling law of a well-formed Einet: the expected value of a product of test functions of the
    sampled entries is a ratio of circuit values. *)
From Coq Require Import List Arith Lia Bool Reals Lra.
Import ListNotations.
From Verif Require Import Base RSum Num Tensor Prob Layers Circuit Net RefFwd RefSample RefLaw Leaf Perm RefLeaf RefLeafS Einet RefNet RefEinet.
Local Open Scope R_scope.
Local Arguments Nat.div : simpl never.
Local Arguments Nat.modulo : simpl never.
Local Arguments Nat.sub : simpl never.
Local Arguments Nat.mul : simpl never.
Local Arguments Nat.add : simpl never.

Definition ind (a b : nat) : R := if Nat.eqb a b then 1 else 0.
(** Probability that row [n] is drawn from class [y]. *)
Definition wroot {V} (E : einet V) (T : R) (y : nat) : R :=
  match e_root E with
  | Some s => wsoft (e_K E) T (fun k => get (logits s) [0; k; 0; 0]%nat) y
  | None => 1
  end.
Definition cweight {V} (E : einet V) (a : sargs) (n y : nat) : R :=
  if Nat.ltb 1 (e_K E) then
    match a_class (V := V) a with
    | CNone => wroot E (a_tsum a) y
    | CInt c => ind c y
    | CList cs => ind (nth n cs 0%nat) y
    end
  else 1.

(** A step of the walk: never fails, keeps contexts good, and acts on products of row functions
    by the given row operator. *)
Section Sampling.
Context {V : Type}.
Variable E : einet V.
Hypothesis HE : einet_ok E.
Let lf := leaf_of (e_leaf E).
Variable EL : list nat -> (V -> R) -> R.
Hypothesis HEL : leaf_expectation EL.

(** The class index, when given, is in range. *)
Definition class_ok (a : sargs (V := V)) : Prop :=
  match a_class a with
  | CNone => True
  | CInt c => (1 < e_K E)%nat /\ (c < e_K E)%nat
  | CList cs => (1 < e_K E)%nat /\ length cs = num_samples a /\ forall c, In c cs -> (c < e_K E)%nat
  end.

Lemma init_ctx_good a Rn S : (0 < Rn)%nat -> (0 < S)%nat -> cgood (init_ctx (V := V) a) (num_samples a) 1 S Rn.
Proof. intros HR HS. unfold init_ctx, full, cgood. cbn. repeat split; auto. Qed.

Lemma rsum_ind K y (h : nat -> R) : (y < K)%nat -> rsum K (fun k => ind y k * h k) = h y.
Proof.
  intros Hy. rewrite (rsum_single K y (fun k => ind y k * h k) Hy).
  - unfold ind. rewrite Nat.eqb_refl. ring.
  - intros k _ Hk. unfold ind. destruct (Nat.eqb_spec y k); [congruence|ring].
Qed.

Lemma class_step_law a : class_ok a -> (0 < num_samples a)%nat -> a_mpe a = false -> a_tsum a <> 0 ->
  let N := num_samples a in
  (forall supp r, outcome supp (class_step E a (init_ctx a)) r -> exists c', r = Ok (N, c') /\ cgood c' N 1 (e_K E) (e_R E) /\
      c_mpe c' = false /\ c_tsum c' = a_tsum a) /\
  (forall h : nat -> nat -> R, expect EL (class_step E a (init_ctx a)) (fun nc => rprod N (fun n => h n (get (c_out (snd nc)) [n; 0%nat]))) =
     rprod N (fun n => rsum (e_K E) (fun y => cweight E a n y * h n y))).
Proof.
  intros Hc HN Hm HT N. pose proof (eo_R E HE) as HR. pose proof (eo_K E HE) as HK.
  unfold class_step, cweight, class_ok in *. fold N in Hc, HN |- *. destruct (Nat.ltb_spec 1 (e_K E)) as [HK1|HK1].
  - destruct (a_class a) as [|y|cs].
    + destruct (eo_root E HE HK1) as (s & Es & Hok & S1 & S2 & S3 & S4). unfold wroot. rewrite Es. cbn [attr lift mbind].
      pose proof (layer_sample_law EL HEL 1 1 (e_K E) (LSum s) N None vone (a_tsum a)) as L.
      cbn [layer_ok layer_dout layer_sout layer_us layer_sample layer_cached] in L. unfold dims in L. rewrite S1, S3 in L.
      assert (L': layer_law EL (sum_sample s None) N 1 [sum_u s (a_tsum a)] 1 (e_K E) 1 1 (a_tsum a) vone).
      { apply L; auto. left; auto. intros n Hn d k r _ _ _. unfold vone. lra. }
      clear L. pose proof (init_ctx_good a 1 1 ltac:(lia) ltac:(lia)) as G. fold N in G.
      destruct (L' (init_ctx a) G) as [O X]; [cbn; auto|reflexivity|]. split.
      * intros supp r Ho. apply outcome_bind in Ho as [(e & Ho & _)|(c' & Ho & Hr)].
        { destruct (O _ _ Ho) as (c' & Z & _). discriminate. }
        destruct (O _ _ Ho) as (c'' & Z & Gc & Er & Em & Et). inversion Z; subst c''.
        apply outcome_ret_inv in Hr. exists c'. split; auto. split; auto.
        destruct Gc as (H1 & H2 & H3 & H4 & H5). repeat split; auto. intros n Hn. specialize (H5 n Hn). lia.
      * intros h. rewrite expect_bind by auto.
        transitivity (expect EL (sum_sample s None (init_ctx a)) (fun c' => tprod N 1 c' (fun n _ k _ => h n k))).
        { apply expect_ext; auto. intros c'. cbn [expect snd]. unfold tprod. apply rprod_ext. intros n Hn. rewrite rprod_S, rprod_0. ring. }
        rewrite X. unfold tprod. apply rprod_ext. intros n Hn. rewrite rprod_S, rprod_0, Rmult_1_l.
        cbn [init_ctx c_out c_rep full get].
        assert (E1: forall v, evals [sum_u s (a_tsum a)] v 0%nat 0%nat 0%nat =
           rsum (e_K E) (fun y => wsoft (e_K E) (a_tsum a) (fun k => get (logits s) [0; k; 0; 0]%nat) y * v 0%nat y 0%nat)).
        { intros v. cbn [evals fold_left]. unfold ueval, sum_u, uprod, linsum_w. cbn [uK uW ukids usel]. rewrite S2. apply rsum_ext.
          intros y Hy. cbn [lprod]. ring. }
        rewrite !E1. unfold vmul, vone.
        set (w := wsoft (e_K E) (a_tsum a) (fun k => get (logits s) [0; k; 0; 0]%nat)).
        rewrite (rsum_ext (e_K E) (fun y => w y * 1) w) by (intros; ring). unfold w at 2. rewrite wsoft_sum by auto.
        unfold Rdiv. rewrite Rinv_1, Rmult_1_r. apply rsum_ext. intros. ring.
    + destruct Hc as [_ Hy]. split.
      * intros supp r Ho. apply outcome_ret_inv in Ho. eexists. split; [exact Ho|].
        pose proof (init_ctx_good a _ _ HR HK) as (H1 & H2 & H3 & H4 & H5). split; [|split; [exact Hm|reflexivity]].
        repeat split; auto.
      * intros h. cbn [expect snd set_out c_out full get]. apply rprod_ext. intros n Hn. rewrite rsum_ind; auto.
    + destruct Hc as (_ & Hl & Hcs). split.
      * intros supp r Ho. apply outcome_ret_inv in Ho. rewrite Hl in Ho. eexists. split; [exact Ho|].
        pose proof (init_ctx_good a _ _ HR HK) as (H1 & H2 & H3 & H4 & H5). split; [|split; [exact Hm|reflexivity]].
        repeat split; auto. intros n d Hn Hd. cbn. apply Hcs. apply nth_In. fold N in Hl. lia.
      * intros h. cbn [expect snd set_out c_out get hd]. apply rprod_ext. intros n Hn. rewrite rsum_ind; auto.
        apply Hcs. apply nth_In. fold N in Hl. lia.
  - assert (EK: e_K E = 1%nat) by lia. split.
    + intros supp r Ho. apply outcome_ret_inv in Ho. eexists. split; [exact Ho|].
      split; [apply init_ctx_good; auto|]. split; auto.
    + intros h. cbn [expect snd init_ctx c_out full get]. apply rprod_ext. intros n Hn. rewrite EK, rsum_S, rsum_0. ring.
Qed.

(** ** The repetition *)
Definition mcached N (ca : option cache) (v : nat -> nat -> nat -> R) : Prop :=
  (1 < e_R E)%nat -> forall m, e_mixing E = Some m ->
  exists v', mixing_cached m N ca v' /\
    forall n y r, (n < N)%nat -> (y < e_K E)%nat -> (r < e_R E)%nat -> v' n y r = v n y r.
Lemma mixing_step_law N T cs (v : nat -> nat -> nat -> R) c : T <> 0 ->
  mcached N (ca_mixing cs) v ->
  (forall n y r, (n < N)%nat -> (y < e_K E)%nat -> (r < e_R E)%nat -> 0 < v n y r) ->
  cgood c N 1 (e_K E) (e_R E) -> c_tsum c = T -> c_mpe c = false ->
  (forall supp r, outcome supp (mixing_step E cs N c) r -> exists c', r = Ok c' /\ cgood c' N 1 (e_K E) (e_R E) /\
      c_mpe c' = false /\ c_tsum c' = T) /\
  (forall h : nat -> nat -> nat -> R, expect EL (mixing_step E cs N c) (fun c' => rprod N (fun n => h n (get (c_out c') [n; 0%nat]) (get (c_rep c') [n]))) =
     rprod N (fun n => let y := get (c_out c) [n; 0%nat] in
       rsum (e_R E) (fun r => emix E T y r * v n y r * h n y r) / rsum (e_R E) (fun r => emix E T y r * v n y r))).
Proof.
  intros HT Hca Hv Hc Et Em. unfold mixing_step. destruct (Nat.ltb_spec 1 (e_R E)) as [HR|HR].
  - destruct (eo_mix E HE HR) as (m & Emx & Hok & Hs1 & Hs2). rewrite Emx. cbn [attr lift mbind].
    destruct (Hca HR m Emx) as (v' & Hca' & Ev').
    pose proof (mixing_law EL HEL m N (ca_mixing cs) v' T c Hok HT Hca') as L. rewrite Hs1, Hs2 in L.
    assert (Hv': forall n y r, (n < N)%nat -> (y < e_K E)%nat -> (r < e_R E)%nat -> 0 < v' n y r) by (intros; rewrite Ev'; auto).
    destruct (L Hv' Hc Et Em) as [O X].
    assert (VW: forall t : tensor nat, shape t = [N; 1%nat] -> exists t', view [N] t = Ok t' /\ shape t' = [N] /\
       forall n, (n < N)%nat -> get t' [n] = get t [n; 0%nat]).
    { intros t St. unfold view. rewrite St. cbn [numel]. rewrite !Nat.mul_1_r, Nat.eqb_refl. eexists. split; [reflexivity|].
      split; [reflexivity|]. intros n Hn. cbn [get ravel numel unravel].
      rewrite !Nat.mul_1_r, Nat.add_0_r, Nat.div_1_r, Nat.mod_1_r. reflexivity. }
    split.
    + intros supp r Ho. apply outcome_bind in Ho as [(e & Ho & _)|(c' & Ho & Hr)].
      { destruct (O _ _ Ho) as (c' & Z & _). discriminate. }
      destruct (O _ _ Ho) as (c'' & Z & Gc & Er & Em' & Et'). inversion Z; subst c''.
      destruct Gc as (H1 & H2 & H3 & H4 & H5). destruct (VW _ H2) as (t' & Ev & Sv & Gv). rewrite Ev in Hr. cbn [lift mbind] in Hr.
      apply outcome_ret_inv in Hr. eexists. split; [exact Hr|]. pose proof Hc as (K1 & K2 & K3 & K4 & K5).
      split; [|split; auto]. split; [exact H1|]. split; [exact K2|]. split; [exact K3|]. split; [exact Sv|].
      intros n Hn. cbn [c_rep]. rewrite Gv by auto. apply H3; auto.
    + intros h. rewrite expect_bind by auto.
      rewrite (expect_ext_outcome EL HEL _ _ (fun c' => rprod N (fun n => h n (get (c_out c) [n; 0%nat]) (get (c_out c') [n; 0%nat])))).
      2:{ intros c' Ho. destruct (O _ _ Ho) as (c'' & Z & Gc & _). inversion Z; subst c''. destruct Gc as (_ & H2 & _).
          destruct (VW _ H2) as (t' & Ev & Sv & Gv). rewrite Ev. cbn [lift mbind expect c_out c_rep]. apply rprod_ext. intros n Hn.
          rewrite Gv by auto. reflexivity. }
      rewrite (X (fun n r => h n (get (c_out c) [n; 0%nat]) r)). apply rprod_ext. intros n Hn. cbv zeta.
      set (y := get (c_out c) [n; 0%nat]). unfold mixpost. rewrite Hs1. unfold Rdiv. rewrite <- rsum_scal_r.
      assert (EM: forall r, emix E T y r = mixing_w m T y r).
      { intros r. unfold emix. rewrite Emx. destruct (Nat.ltb_spec 1 (e_R E)); [auto|lia]. }
      assert (Hy: (y < e_K E)%nat) by (destruct Hc as (_ & _ & Go & _); apply Go; auto).
      rewrite (rsum_ext (e_R E) (fun r => emix E T y r * v n y r) (fun r => mixing_w m T y r * v' n y r)) by (intros; rewrite EM, Ev'; auto).
      apply rsum_ext. intros r Hr. rewrite EM, Ev' by auto. ring.
  - pose proof (eo_R E HE). assert (ER: e_R E = 1%nat) by lia. split.
    + intros supp r Ho. apply outcome_ret_inv in Ho. exists c. auto.
    + intros h. cbn [expect]. apply rprod_ext. intros n Hn. cbv zeta. rewrite ER, !rsum_S, !rsum_0.
      pose proof Hc as (_ & _ & H3 & _ & H5). specialize (H5 n Hn). rewrite ER in H5. assert (Z: get (c_rep c) [n] = 0%nat) by lia. rewrite Z.
      assert (0 < v n (get (c_out c) [n; 0%nat]) 0%nat) by (apply Hv; auto; lia).
      pose proof (emix_pos E HE T (get (c_out c) [n; 0%nat]) 0%nat (H3 n 0%nat Hn ltac:(lia)) ltac:(lia)).
      field. lra.
Qed.

(** ** From the root to the indices of the leaf layer *)
Definition walk (a : sargs) (cs : caches) : M V sctx :=
  nc <~ class_step E a (init_ctx a) ;;
  c <~ mixing_step E cs (fst nc) (snd nc) ;;
  sample_layers (combine (e_layers E) (ca_layers cs)) c.

Definition us T := layers_us T (e_L E) (e_layers E).
(** The caches hold values computed from the leaf values [v]. *)
Definition cs_ok (T : R) (N : nat) (cs : caches) (v : nat -> vals) : Prop :=
  layers_cached T (e_R E) (leaf_out E) (e_L E) (e_layers E) (ca_layers cs) N v /\
  mcached N (ca_mixing cs) (fun n y r => evals (us T) (v n) 0%nat y r).

Lemma walk_law a cs v : class_ok a -> (0 < num_samples a)%nat -> a_mpe a = false -> a_tsum a <> 0 ->
  let N := num_samples a in let T := a_tsum a in
  cs_ok T N cs v -> (forall n, (n < N)%nat -> vpos (leaf_out E) (e_L E) (e_R E) (v n)) ->
  (forall supp r, outcome supp (walk a cs) r -> exists c', r = Ok c' /\ cgood c' N (leaf_out E) (e_L E) (e_R E) /\ c_mpe c' = false) /\
  (forall h, expect EL (walk a cs) (fun c' => tprod N (leaf_out E) c' h) =
     rprod N (fun n => rsum (e_K E) (fun y => cweight E a n y *
       (rsum (e_R E) (fun r => emix E T y r * evals (us T) (vmul (h n) (v n)) 0%nat y r) /
        rsum (e_R E) (fun r => emix E T y r * evals (us T) (v n) 0%nat y r))))).
Proof.
  intros Hcl HN Hm HT N T [Hl Hmx] Hv.
  destruct (class_step_law a Hcl HN Hm HT) as [O1 X1]. fold N in O1, X1, HN. fold T in O1, HT.
  set (vm := fun n y r => evals (us T) (v n) 0%nat y r).
  assert (Hvm: forall n y r, (n < N)%nat -> (y < e_K E)%nat -> (r < e_R E)%nat -> 0 < vm n y r).
  { intros n y r Hn Hy Hr. apply (evals_root_pos E HE T (v n) y r); auto. }
  pose proof (fun c => mixing_step_law N T cs vm c HT Hmx Hvm) as M.
  pose proof (sample_layers_law EL HEL (e_R E) (e_layers E) (leaf_out E) (e_L E) 1 (e_K E) N (ca_layers cs) v T (eo_layers E HE) HN HT Hl Hv) as L.
  unfold walk. split.
  - intros supp r Ho. apply outcome_bind in Ho as [(e & Ho & _)|(nc & Ho & Hr)].
    { destruct (O1 _ _ Ho) as (c' & Z & _). discriminate. }
    destruct (O1 _ _ Ho) as (c1 & Z & G1 & Em1 & Et1). inversion Z; subst nc. cbn [fst snd] in Hr.
    destruct (M c1 G1 Et1 Em1) as [O2 _].
    apply outcome_bind in Hr as [(e & Hr & _)|(c2 & Ho2 & Hr)].
    { destruct (O2 _ _ Hr) as (c' & Z' & _). discriminate. }
    destruct (O2 _ _ Ho2) as (c2' & Z2 & G2 & Em2 & Et2). inversion Z2; subst c2'.
    destruct (L c2 G2 Em2 Et2) as [O3 _]. destruct (O3 _ _ Hr) as (c3 & Z3 & G3 & _ & Em3 & _). exists c3. auto.
  - intros h. rewrite expect_bind by auto.
    rewrite (expect_ext_outcome EL HEL _ _ (fun nc => rprod N (fun n => let y := get (c_out (snd nc)) [n; 0%nat] in
       rsum (e_R E) (fun r => emix E T y r * evals (us T) (vmul (h n) (v n)) 0%nat y r) /
       rsum (e_R E) (fun r => emix E T y r * evals (us T) (v n) 0%nat y r)))).
    + etransitivity; [|apply (X1 (fun n y => rsum (e_R E) (fun r => emix E T y r * evals (us T) (vmul (h n) (v n)) 0%nat y r) /
       rsum (e_R E) (fun r => emix E T y r * evals (us T) (v n) 0%nat y r)))]. reflexivity.
    + intros nc Ho. destruct (O1 _ _ Ho) as (c1 & Z & G1 & Em1 & Et1). inversion Z; subst nc. cbn [fst snd].
      destruct (M c1 G1 Et1 Em1) as [O2 X2]. rewrite expect_bind by auto.
      rewrite (expect_ext_outcome EL HEL _ _ (fun c2 => rprod N (fun n =>
         (fun n y r => evals (us T) (vmul (h n) (v n)) 0%nat y r / vm n y r) n (get (c_out c2) [n; 0%nat]) (get (c_rep c2) [n])))).
      2:{ intros c2 Ho2. destruct (O2 _ _ Ho2) as (c2' & Z2 & G2 & Em2 & Et2). inversion Z2; subst c2'.
          destruct (L c2 G2 Em2 Et2) as [_ X3]. rewrite (X3 h). unfold tprod. apply rprod_ext. intros n Hn.
          rewrite rprod_S, rprod_0, Rmult_1_l. reflexivity. }
      rewrite (X2 (fun n y r => evals (us T) (vmul (h n) (v n)) 0%nat y r / vm n y r)).
      apply rprod_ext. intros n Hn. cbv zeta. set (y := get (c_out c1) [n; 0%nat]).
      assert (Hy: (y < e_K E)%nat) by (destruct G1 as (_ & _ & Go & _); apply Go; auto).
      f_equal. apply rsum_ext. intros r Hr. pose proof (Hvm n y r Hn Hy Hr) as P. unfold vm in *. field. lra.
Qed.

(** ** Leaf layer *)
Lemma mbind_ext {A B} (m : M V A) (f g : A -> M V B) : (forall a, f a = g a) -> mbind m f = mbind m g.
Proof. intros H. f_equal. apply FunctionalExtensionality.functional_extensionality. auto. Qed.
Definition bottom (c : sctx) (mode : bool) : M V (tensor V) :=
  c <~ lift (unpermute E c) ;; leaf_sample (e_leaf E) c mode.

Lemma bottom_routes c N : lf_ctx lf = true -> (0 < N)%nat -> cgood c N (leaf_out E) (e_L E) (e_R E) ->
  exists k, routes lf k c N (sgrp E) /\ forall mode, bottom c mode = leaf_prog lf k N mode.
Proof.
  intros Hctx HN Hc. pose proof (eo_ll E HE) as H. unfold bottom, leaf_layer_ok, leaf_out, unpermute, sgrp in *.
  pose proof (eo_lC E HE) as EC. pose proof (eo_lF E HE) as EF.
  pose proof (eo_lL E HE) as EL'. pose proof (eo_lR E HE) as ER. pose proof (eo_F E HE) as HF. fold lf in EC, EF, EL', ER.
  assert (ELF: leaf_of (e_leaf E) = lf) by reflexivity. clearbody lf.
  destruct (e_leaf E) as [lf' Fo sc|lf' Fo pl pinv|lf']; cbn [leaf_of] in ELF; subst lf';
    destruct (e_perm E) as [[p q]|]; try tauto; cbn [lift mbind].
  - rewrite <- EF, <- ER in H. rewrite <- EL', <- ER in Hc. 
    eexists. split; [apply (fact_routes lf Fo sc _ c N HN H Hc)|]. intros mode.
    unfold leaf_sample, fact_sample, base_sample, leaf_prog. rewrite Hctx. cbn [guard lift mbind].
    pose proof Hc as (-> & _). rewrite mbind_assoc. apply mbind_ext. intros s. destruct (leaf_select s None (c_rep c)); reflexivity.
  - destruct H as (HR & HFo & Hp & ->). rewrite <- EF in Hp. rewrite <- EL', <- ER in Hc.
    eexists. split; [rewrite <- EF; apply (simple_routes lf Fo pl c N HFo Hp Hc)|]. intros mode.
    unfold leaf_sample, simple_sample, base_sample, leaf_prog. rewrite Hctx. cbn [guard lift mbind].
    pose proof Hc as (-> & _). rewrite mbind_assoc. apply mbind_ext. intros s. destruct (leaf_select s None (c_rep c)); reflexivity.
  - pose proof Hc as (Hn & So & Go & Sr & Gr).
    assert (PQ: forall r f, (r < e_R E)%nat -> (f < e_F E)%nat -> (nth f (q r) 0 < e_F E)%nat).
    { intros r f Hr Hf. destruct (H r Hr) as [Hp ->]. apply (argsort_nth _ _ f Hp Hf). }
    destruct c as [cn out rep cm ct]. cbn [c_n c_out c_rep set_out c_mpe c_tsum] in *. subst cn.
    destruct out as [so go], rep as [sr gr]. cbn [shape get] in *. subst so sr.
    unfold index_dim, buffer, size. cbn [shape nth set_nth get].
    replace (forallb _ _) with true.
    2:{ symmetry. apply forallb_forall. intros i Hi. apply in_seq0 in Hi. apply Nat.ltb_lt. auto. }
    cbn [bind hd nth set_nth]. rewrite gather_ok.
    2:{ fits. }
    2:{ cbn [shape]. intros idx Hi. inbs. cbn [get hd nth set_nth]. unfold size. cbn [shape nth]. apply PQ; auto. }
    cbn [bind lift mbind set_nth get nth hd shape].
    match goal with |- context [leaf_sample _ ?X _] => set (c' := X) end.
    assert (Gc': cgood c' N (lf_F lf) (lf_L lf) (lf_R lf)).
    { rewrite EF, EL', ER. repeat split; cbn; auto. }
    exists (fun s => leaf_select s (Some (c_out c')) (c_rep c')). split.
    + intros s Hs. rewrite <- EF in HF. destruct (direct_routes lf c' N HF Gc' s Hs) as (t & Et & St & Gt). exists t. split; [exact Et|].
      split; [exact St|]. intros n ch f Hn Hch Hf. rewrite (Gt n ch f Hn Hch Hf). reflexivity.
    + intros mode. unfold leaf_sample, base_sample, leaf_prog. rewrite Hctx. cbn [guard lift mbind]. reflexivity.
Qed.

Definition elg (g : nat -> nat -> V -> R) : leaves := fun ch f l r => EL [ch; f; l; r] (g ch f).
Definition core (a : sargs) (cs : caches) : M V (tensor V) :=
  c <~ walk a cs ;; bottom c (a_mpe a || a_mpel a).

Lemma core_law a cs v : class_ok a -> (0 < num_samples a)%nat -> a_mpe a = false -> a_mpel a = false -> a_tsum a <> 0 ->
  lf_ctx lf = true ->
  let N := num_samples a in let T := a_tsum a in
  cs_ok T N cs v -> (forall n, (n < N)%nat -> vpos (leaf_out E) (e_L E) (e_R E) (v n)) ->
  (forall supp r, outcome supp (core a cs) r -> exists t, r = Ok t /\ shape t = [N; e_C E; e_F E] /\
     forall n c f, (n < N)%nat -> (c < e_C E)%nat -> (f < e_F E)%nat ->
       exists l r, (l < e_L E)%nat /\ (r < e_R E)%nat /\ supp [c; f; l; r] (get t [n; c; f])) /\
  (forall g : nat -> nat -> nat -> V -> R,
     expect EL (core a cs) (fun t => rprod3 N (e_C E) (e_F E) (fun n c f => g n c f (get t [n; c; f]))) =
     rprod N (fun n => rsum (e_K E) (fun y => cweight E a n y *
       (rsum (e_R E) (fun r => emix E T y r * evals (us T) (vmul (gleaf (e_F E) (e_C E) (sgrp E) (elg (g n))) (v n)) 0%nat y r) /
        rsum (e_R E) (fun r => emix E T y r * evals (us T) (v n) 0%nat y r))))).
Proof.
  intros Hcl HN Hm Hml HT Hctx N T Hcs Hv. destruct (walk_law a cs v Hcl HN Hm HT Hcs Hv) as [O X]. fold N in O, X, HN. fold T in X.
  pose proof (eo_lC E HE) as EC. pose proof (eo_lF E HE) as EF.
  pose proof (eo_lL E HE) as EL'. pose proof (eo_lR E HE) as ER. fold lf in EC, EF, EL', ER.
  assert (HG: forall r f, (r < lf_R lf)%nat -> (f < lf_F lf)%nat -> (sgrp E r f < leaf_out E)%nat).
  { rewrite EF, ER. intros. apply sgrp_lt; auto. }
  unfold core. rewrite Hm, Hml. cbn [orb]. split.
  - intros supp r Ho. apply outcome_bind in Ho as [(e & Ho & _)|(c & Ho & Hr)].
    { destruct (O _ _ Ho) as (c' & Z & _). discriminate. }
    destruct (O _ _ Ho) as (c' & Z & Gc & _). inversion Z; subst c'.
    destruct (bottom_routes c N Hctx HN Gc) as (k & Hk & Eb). rewrite Eb in Hr.
    pose proof Gc as (_ & _ & Go & _ & Gr).
    rewrite <- EL', <- ER in Gc. destruct (leaf_draw_outcome lf supp k c N (leaf_out E) (sgrp E) r Gc HG Hk Hr) as (t & -> & St & Gt).
    exists t. split; auto. rewrite EC, EF in St, Gt. split; auto. intros n ch f Hn Hch Hf.
    exists (get (c_out c) [n; sgrp E (get (c_rep c) [n]) f]), (get (c_rep c) [n]). split; [|split; auto].
    apply Go; auto. rewrite EF, ER in HG. apply HG; auto.
  - intros g. rewrite expect_bind by auto.
    rewrite (expect_ext_outcome EL HEL _ _ (fun c => tprod N (leaf_out E) c (fun n => gleaf (e_F E) (e_C E) (sgrp E) (elg (g n))))).
    + rewrite X. reflexivity.
    + intros c Ho. destruct (O _ _ Ho) as (c' & Z & Gc & _). inversion Z; subst c'.
      destruct (bottom_routes c N Hctx HN Gc) as (k & Hk & Eb). rewrite Eb.
      rewrite <- EL', <- ER in Gc. pose proof (leaf_draw_law lf EL HEL k c N (leaf_out E) (sgrp E) g Gc HG Hk) as D.
      rewrite EC, EF in D. exact D.
Qed.

(** ** The whole of [sample] *)
Definition finish (a : sargs) (t : tensor V) : M V (tensor (option V)) :=
  match a_ev a with None => Ret (tmap Some t) | Some e => lift (merge_evidence e (a_ms a) t) end.
Lemma sample_core a cs : check_args E a = Ok tt -> ev_caches E a = Ok cs ->
  sample E a = mbind (core a cs) (finish a).
Proof.
  intros H1 H2. unfold sample, sample_ctx, core, walk, bottom, finish. rewrite H1, H2. cbn [lift mbind].
  repeat first [rewrite !mbind_assoc | apply mbind_ext; intros ?]. reflexivity.
Qed.

Lemma no_caches_ok T N : cs_ok T N (no_caches E) vone.
Proof.
  pose proof (layers_chain T _ _ _ _ _ _ (eo_layers E HE)) as C. split.
  - eapply layers_cached_none; [apply (eo_layers E HE)|]. intros n Hn d s r _ _ _. reflexivity.
  - intros HR m Em. destruct (eo_mix E HE HR) as (m' & Em' & Hok & Hs1 & Hs2). rewrite Em in Em'. inversion Em'; subst m'.
    exists (fun _ _ _ => 1). split; [left; auto|]. intros n y r Hn Hy Hr. symmetry. unfold us.
    eapply (evals_one (e_R E)); [exact C| | | |]; auto. intros d s q _ _ _. reflexivity.
Qed.
Lemma leafval_net grp T q : leafval (net_with E grp T) q = gleaf (e_F E) (e_C E) grp q.
Proof. reflexivity. Qed.

(** Data drawn without evidence. *)
Theorem sample_free_law a : check_args E a = Ok tt -> class_ok a -> a_ev a = None -> (0 < num_samples a)%nat ->
  a_mpe a = false -> a_mpel a = false -> a_tsum a <> 0 -> lf_ctx lf = true ->
  let N := num_samples a in
  (forall supp r, outcome supp (sample E a) r -> exists t, r = Ok t /\ shape t = [N; e_C E; e_F E] /\
     forall n c f, (n < N)%nat -> (c < e_C E)%nat -> (f < e_F E)%nat ->
       exists v l r, get t [n; c; f] = Some v /\ (l < e_L E)%nat /\ (r < e_R E)%nat /\ supp [c; f; l; r] v) /\
  (forall g : nat -> nat -> nat -> option V -> R,
     expect EL (sample E a) (fun t => rprod3 N (e_C E) (e_F E) (fun n c f => g n c f (get t [n; c; f]))) =
     rprod N (fun n => rsum (e_K E) (fun y => cweight E a n y *
       neteval (snet E (a_tsum a)) (elg (fun c f v => g n c f (Some v))) y))).
Proof.
  intros Hch Hcl Hev HN Hm Hml HT Hctx N.
  assert (Ec: ev_caches E a = Ok (no_caches E)) by (unfold ev_caches; rewrite Hev; auto).
  rewrite (sample_core a _ Hch Ec).
  destruct (core_law a (no_caches E) vone Hcl HN Hm Hml HT Hctx (no_caches_ok _ _)) as [O X].
  { intros n Hn d s r _ _ _. unfold vone. lra. }
  fold N in O, X. unfold finish. rewrite Hev. split.
  - intros supp r Ho. apply outcome_bind in Ho as [(e & Ho & _)|(t & Ho & Hr)].
    { destruct (O _ _ Ho) as (c' & Z & _). discriminate. }
    destruct (O _ _ Ho) as (t' & Z & St & Gt). inversion Z; subst t'. apply outcome_ret_inv in Hr. subst r.
    exists (tmap Some t). split; auto. split; auto. intros n c f Hn Hc Hf.
    destruct (Gt n c f Hn Hc Hf) as (l & r & Hl & Hr & Hs). exists (get t [n; c; f]), l, r. auto.
  - intros g. rewrite expect_bind by auto. cbn [expect tmap get]. rewrite (X (fun n c f v => g n c f (Some v))).
    apply rprod_ext. intros n Hn. apply rsum_ext. intros y Hy. f_equal. unfold neteval.
    pose proof (layers_chain (a_tsum a) _ _ _ _ _ _ (eo_layers E HE)) as C.
    rewrite (rsum_ext (e_R E) (fun r => emix E (a_tsum a) y r * evals (us (a_tsum a)) (vone n) 0%nat y r) (emix E (a_tsum a) y)).
    + rewrite emix_sum by auto. unfold Rdiv. rewrite Rinv_1, Rmult_1_r. cbn [snet net_with nR nmix nls]. apply rsum_ext. intros r Hr.
      f_equal. eapply (evals_ext (e_R E)); [exact C| | | |]; auto. intros d s q _ _ _. unfold vmul, vone. rewrite Rmult_1_r. reflexivity.
    + intros r Hr. unfold us. rewrite (evals_one (e_R E) (layers_us (a_tsum a) (e_L E) (e_layers E)) (leaf_out E) (e_L E) 1 (e_K E)); auto; [ring|].
      intros d s q _ _ _. reflexivity.
Qed.

(** Sampling and forward pass group the features in the same way. *)
Definition groups_agree : Prop := forall r f, (r < e_R E)%nat -> (f < e_F E)%nat -> sgrp E r f = fgrp E r f.

Lemma merge_ok N e ms t : input_ok E N e ms -> shape t = [N; e_C E; e_F E] ->
  exists o, merge_evidence e ms t = Ok o /\ shape o = shape e /\
    forall n c f, (n < N)%nat -> (c < e_C E)%nat -> (f < e_F E)%nat ->
      entry o n c f = match row e ms n c f with Some v => Some v | None => Some (get t [n; c; f]) end.
Proof.
  intros (Hs & Hsup & Hms) St. unfold merge_evidence. rewrite St. destruct (view_3 e N _ _ Hs) as (e' & -> & Se' & Ge'). cbn [bind].
  destruct ms as [m|].
  - destruct Hms as [Hm1 Hm2]. unfold size. rewrite Se'. cbn [nth].
    replace (forallb _ m) with true.
    2:{ symmetry. apply forallb_forall. intros f Hf. apply Nat.ltb_lt. auto. }
    cbn [guard bind]. match goal with |- context [view _ ?t'] => destruct (view_back t' (shape e) N (e_C E) (e_F E) Hs eq_refl) as (o & -> & So & Go) end.
    exists o. split; auto. split; auto. intros n c f Hn Hc Hf. rewrite Go by auto. cbn [get nth]. unfold row, in_ms.
    destruct (existsb (Nat.eqb f) m) eqn:Ex; auto. rewrite Ge' by auto. destruct (entry e n c f) eqn:Ee; auto.
    exfalso. apply (Hm2 n c f Hn Hc Hf); auto. intro Hi. apply existsb_eqb_In in Hi. congruence.
  - cbn [bind]. match goal with |- context [view _ ?t'] => destruct (view_back t' (shape e) N (e_C E) (e_F E) Hs Se') as (o & -> & So & Go) end.
    exists o. split; auto. split; auto. intros n c f Hn Hc Hf. rewrite Go by auto. cbn [get]. unfold row. cbn [in_ms].
    rewrite Ge' by auto. destruct (entry e n c f); auto.
Qed.

(** Data completed from evidence. *)
Theorem sample_evidence_law a e : a_ev a = Some e -> check_args E a = Ok tt -> let N := num_samples a in
  input_ok E N e (a_ms a) -> (0 < N)%nat ->
  a_mpe a = false -> a_mpel a = false -> a_tsum a = 1 -> lf_ctx lf = true ->
  (forall supp r, outcome supp (sample E a) r -> exists o, r = Ok o /\ shape o = shape e /\
     forall n c f, (n < N)%nat -> (c < e_C E)%nat -> (f < e_F E)%nat ->
       match row e (a_ms a) n c f with
       | Some v => entry o n c f = Some v
       | None => exists v l r, entry o n c f = Some v /\ (l < e_L E)%nat /\ (r < e_R E)%nat /\ supp [c; f; l; r] v
       end) /\
  (groups_agree -> forall g : nat -> nat -> nat -> option V -> R,
     expect EL (sample E a) (fun o => rprod3 N (e_C E) (e_F E) (fun n c f => g n c f (entry o n c f))) =
     rprod N (fun n => rsum (e_K E) (fun y => cweight E a n y *
       (neteval (fnet E) (fun c f l r => match row e (a_ms a) n c f with
                                         | Some v => pdf lf c f l r v * g n c f (Some v)
                                         | None => EL [c; f; l; r] (fun v => g n c f (Some v)) end) y /
        neteval (fnet E) (lval (pdf lf) (row e (a_ms a) n)) y)))).
Proof.
  intros Hev Hch N Hin HN Hm Hml HT Hctx.
  assert (Hcl: class_ok a).
  { unfold class_ok. unfold check_args in Hch. rewrite Hev in Hch. destruct (a_class a); auto; discriminate. }
  destruct (forward_full_rep E HE N e (a_ms a) Hin) as (y & cs & Ey & _ & _ & v & Hv & Hc1 & Hc2). fold lf in Hv.
  assert (Ec: ev_caches E a = Ok cs) by (unfold ev_caches; rewrite Hev, Ey; auto).
  rewrite (sample_core a _ Hch Ec).
  assert (Pv: forall n, (n < N)%nat -> vpos (leaf_out E) (e_L E) (e_R E) (v n)).
  { intros n Hn d s r Hd Hs Hr. rewrite Hv by auto. apply (leafval_pos (fnet E)); auto. intros. apply lval_pos. }
  assert (Hcs: cs_ok (a_tsum a) N cs v).
  { rewrite HT. split; auto. intros HR m Em. eexists. split; [apply Hc2; auto|]. reflexivity. }
  destruct (core_law a cs v Hcl HN Hm Hml ltac:(lra) Hctx Hcs Pv) as [O X]. fold N in O, X. unfold finish. rewrite Hev. split.
  - intros supp r Ho. apply outcome_bind in Ho as [(e' & Ho & _)|(t & Ho & Hr)].
    { destruct (O _ _ Ho) as (c' & Z & _). discriminate. }
    destruct (O _ _ Ho) as (t' & Z & St & Gt). inversion Z; subst t'.
    destruct (merge_ok N e (a_ms a) t Hin St) as (o & Eo & So & Go). rewrite Eo in Hr. apply outcome_ret_inv in Hr. subst r.
    exists o. split; auto. split; auto. intros n c f Hn Hc Hf. rewrite Go by auto. destruct (row e (a_ms a) n c f); auto.
    destruct (Gt n c f Hn Hc Hf) as (l & r & Hl & Hr & Hs). exists (get t [n; c; f]), l, r. auto.
  - intros HG g. rewrite expect_bind by auto.
    set (g' := fun n c f w => g n c f (match row e (a_ms a) n c f with Some v => Some v | None => Some w end)).
    rewrite (expect_ext_outcome EL HEL _ _ (fun t => rprod3 N (e_C E) (e_F E) (fun n c f => g' n c f (get t [n; c; f])))).
    2:{ intros t Ho. destruct (O _ _ Ho) as (t' & Z & St & _). inversion Z; subst t'.
        destruct (merge_ok N e (a_ms a) t Hin St) as (o & Eo & So & Go). rewrite Eo. cbn [lift expect].
        apply rprod3_ext. intros n c f Hn Hc Hf. rewrite Go by auto. unfold g'. destruct (row e (a_ms a) n c f); auto. }
    rewrite (X g'). apply rprod_ext. intros n Hn. apply rsum_ext. intros k Hk. f_equal. unfold neteval. rewrite HT.
    pose proof (layers_chain 1 _ _ _ _ _ _ (eo_layers E HE)) as C.
    unfold us. cbn [fnet net_with nR nmix nls]. f_equal.
    + apply rsum_ext. intros r Hr. f_equal. eapply (evals_ext (e_R E)); [exact C| | | |]; auto.
      intros d s q Hd Hs Hq. unfold vmul. rewrite Hv by auto. unfold fnet; rewrite ?leafval_net. unfold gleaf. rewrite <- rprod_mult.
      apply rprod_ext. intros f Hf. rewrite HG by auto. destruct (Nat.eqb (fgrp E q f) d); [|ring].
      rewrite <- rprod_mult. apply rprod_ext. intros c Hc. unfold elg, lval, g'.
      destruct (row e (a_ms a) n c f) as [w|].
      * rewrite (EL_ext EL HEL _ _ (fun _ => g n c f (Some w) * 1)) by (intros; ring). rewrite (EL_scal EL HEL), (EL_one EL HEL). ring.
      * ring.
    + apply rsum_ext. intros r Hr. f_equal. eapply (evals_ext (e_R E)); [exact C| | | |]; auto.
Qed.
End Sampling.
