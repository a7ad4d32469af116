(** The sampling law of a mixture of networks. *)
From Coq Require Import List Arith Lia Bool Reals Lra Permutation.
Import ListNotations.
From Verif Require Import Base RSum Num Tensor Prob Layers Circuit Net RefFwd RefSample RefLaw Leaf Perm RefLeaf RefLeafS TypeChecks
  Einet RefNet RefEinet RefEinetS RefMpe Build RefBuild Spec RefSpec RefPack Mixture RefMixture.
Local Open Scope R_scope.
Local Arguments Nat.div : simpl never.
Local Arguments Nat.modulo : simpl never.
Local Arguments Nat.sub : simpl never.
Local Arguments Nat.mul : simpl never.
Local Arguments Nat.add : simpl never.

(** * Draws of a component *)
Definition ELc {V} (EL : list nat -> (V -> R) -> R) (c : nat) (key : list nat) (f : V -> R) : R := EL (c :: key) f.
Lemma ELc_ok {V} (EL : list nat -> (V -> R) -> R) c : leaf_expectation EL -> leaf_expectation (ELc EL c).
Proof. intros [H1 H2 H3]. unfold ELc. split; auto. Qed.
Lemma expect_tag {V A} (EL : list nat -> (V -> R) -> R) c (m : M V A) g : leaf_expectation EL ->
  expect EL (tag c m) g = expect (ELc EL c) m g.
Proof.
  intros HEL. induction m as [a|e|w k IH|key k IH]; cbn [tag expect]; auto.
  - apply rsum_ext. intros i _. rewrite IH. reflexivity.
  - unfold ELc at 1. apply (EL_ext EL HEL). auto.
Qed.

(** * Products over the elements of a list with their positions *)
Definition iprod {A} (d : A) (u : nat -> A -> R) (l : list A) : R := rprod (length l) (fun i => u i (nth i l d)).
Lemma iprod_nil {A} (d : A) u : iprod d u [] = 1.
Proof. apply rprod_0. Qed.
Lemma iprod_app {A} (d : A) u l l' : iprod d u (l ++ l') = iprod d u l * iprod d (fun i => u (length l + i)%nat) l'.
Proof.
  unfold iprod. rewrite app_length, rprod_add. f_equal; apply rprod_ext; intros i Hi.
  - rewrite app_nth1 by auto. reflexivity.
  - rewrite app_nth2 by lia. replace (length l + i - length l)%nat with i by lia. reflexivity.
Qed.
Lemma iprod_repeat c0 c n u : iprod (A := nat) c0 u (repeat c n) = rprod n (fun i => u i c).
Proof.
  unfold iprod. rewrite repeat_length. apply rprod_ext. intros i Hi. f_equal. rewrite nth_indep with (d' := c) by (rewrite repeat_length; auto). apply nth_repeat.
Qed.
Lemma iprod_lprod c0 (G : nat -> R) l : iprod c0 (fun _ c => G c) l = lprod G l.
Proof.
  revert c0. induction l as [|a l IH]; intros c0; [apply rprod_0|]. change (a :: l) with ([a] ++ l). rewrite iprod_app, lprod_app, <- (IH c0). reflexivity.
Qed.
(** Reindexing by a permutation. *)
Lemma rprod_reindex N l : Permutation l (seq 0 N) -> exists q, (forall j, (j < N)%nat -> (q j < N)%nat /\ nth (q j) l 0%nat = j) /\
  forall phi : nat -> nat -> R, rprod N (fun n => phi n (nth n l 0%nat)) = rprod N (fun j => phi (q j) j).
Proof.
  intros HP. assert (HL: length l = N) by (rewrite (Permutation_length HP); apply seq_length).
  assert (ND: NoDup l) by (eapply Permutation_NoDup; [symmetry; exact HP|apply seq_NoDup]).
  assert (Hex: forall j, (j < N)%nat -> exists n, (n < N)%nat /\ nth n l 0%nat = j).
  { intros j Hj. assert (Hin: In j l) by (eapply Permutation_in; [symmetry; exact HP|apply in_seq; lia]).
    destruct (In_nth _ _ 0%nat Hin) as (n & Hn & E). exists n. split; [lia|auto]. }
  set (q := fun j => match find (fun n => nth n l 0%nat =? j)%nat (seq 0 N) with Some n => n | None => 0%nat end).
  assert (Hq: forall j, (j < N)%nat -> (q j < N)%nat /\ nth (q j) l 0%nat = j).
  { intros j Hj. unfold q. destruct (find _ _) as [n|] eqn:Ef.
    - apply find_some in Ef as [H1 H2]. apply in_seq in H1. apply Nat.eqb_eq in H2. split; [lia|auto].
    - exfalso. destruct (Hex j Hj) as (n & Hn & E). assert (Z: (nth n l 0 =? j)%nat = false) by (apply (find_none _ _ Ef n), in_seq; lia). apply Nat.eqb_neq in Z. auto. }
  assert (Hq2: forall n, (n < N)%nat -> q (nth n l 0%nat) = n).
  { intros n Hn. assert (Hlt: (nth n l 0 < N)%nat).
    { assert (Hin: In (nth n l 0%nat) (seq 0 N)) by (eapply Permutation_in; [exact HP|apply nth_In; lia]). apply in_seq in Hin. lia. }
    destruct (Hq _ Hlt) as [H1 H2]. apply (proj1 (NoDup_nth l 0%nat) ND); [lia|lia|auto]. }
  exists q. split; auto. intros phi.
  transitivity (rprod N (fun n => (fun j => phi (q j) j) (nth n l 0%nat))).
  { apply rprod_ext. intros n Hn. cbv beta. rewrite Hq2 by auto. reflexivity. }
  transitivity (lprod (fun j => phi (q j) j) l).
  - pose proof (iprod_lprod 0%nat (fun j => phi (q j) j) l) as X. unfold iprod in X. rewrite HL in X. exact X.
  - unfold rprod. apply lprod_perm. exact HP.
Qed.

(** * Independent groups *)
Section Groups.
Context {V A B T H : Type}.
Variable EL : list nat -> (V -> R) -> R.
Hypothesis HEL : leaf_expectation EL.
Variables (F : B -> M V A) (d0 : T).
Variable RT : H -> T -> R.

(** Rows listed group after group, tested by position. *)
Lemma draws_rows (rows : A -> list T) (cl : B -> list nat) (G : nat -> H -> R) : forall l,
  (forall b, In b l -> (forall a, outcome (fun _ _ => True) (F b) (Ok a) -> length (rows a) = length (cl b)) /\
     forall h : nat -> H, expect EL (F b) (fun a => iprod d0 (fun i => RT (h i)) (rows a)) = iprod 0%nat (fun i c => G c (h i)) (cl b)) ->
  forall h : nat -> H, expect EL (draws (map F l)) (fun xs => iprod d0 (fun i => RT (h i)) (flat_map rows xs)) =
    iprod 0%nat (fun i c => G c (h i)) (flat_map cl l).
Proof.
  induction l as [|b l IH]; intros Hb h; cbn [map draws flat_map].
  - cbn [expect flat_map]. rewrite !iprod_nil. reflexivity.
  - destruct (Hb b (or_introl eq_refl)) as [Hlen Hlaw]. rewrite expect_bind by auto.
    rewrite iprod_app, <- (IH (fun b' H' => Hb b' (or_intror H')) (fun i => h (length (cl b) + i)%nat)).
    rewrite <- (Hlaw h), Rmult_comm, <- expect_scal by auto. apply expect_ext_outcome; auto. intros a Ha.
    rewrite expect_bind by auto. rewrite Rmult_comm, <- expect_scal by auto. apply expect_ext; auto. intros xs. cbn [expect flat_map].
    rewrite iprod_app, (Hlen a Ha). reflexivity.
Qed.
End Groups.

Lemma draws_parts {V B P} (EL : list nat -> (V -> R) -> R) (HEL : leaf_expectation EL) (F : B -> M V (list P)) (phi : P -> R) (idx : B -> list nat) (G : nat -> R) : forall l,
  (forall b, In b l -> expect EL (F b) (lprod phi) = lprod G (idx b)) ->
  expect EL (draws (map F l)) (fun parts => lprod phi (concat parts)) = lprod G (flat_map idx l).
Proof.
  induction l as [|b l IH]; intros Hb; cbn [map draws flat_map]; [reflexivity|].
  rewrite expect_bind by auto. rewrite lprod_app, <- (IH (fun b' H' => Hb b' (or_intror H'))).
  rewrite <- (Hb b (or_introl eq_refl)), Rmult_comm, <- expect_scal by auto. apply expect_ext; auto. intros a.
  rewrite expect_bind by auto. rewrite Rmult_comm, <- expect_scal by auto. apply expect_ext; auto. intros xs. cbn [expect concat].
  rewrite lprod_app. ring.
Qed.

(** * The law *)
Section Law.
Context {V : Type}.
Variable g : config.
Variable Es : list (einet V).
Hypothesis HA : forall E, In E Es -> exists o, accepted g o E.
Hypothesis Hctx : forall E, In E Es -> lf_ctx (leafE E) = true.
Variable EL : list nat -> (V -> R) -> R.
Hypothesis HEL : leaf_expectation EL.
Let C := nval (g_C g).
Let F := nval (g_F g).

(** A test of one row. *)
Definition rtest := nat -> nat -> option V -> R.
Definition row_value (h : rtest) (t : tensor (option V)) (n : nat) : R := rprod C (fun c => rprod F (fun f => h c f (entry t n c f))).
(** The expected value of a test of one row drawn from component [c]. *)
Definition comp_free (cl : class_arg) (T : R) (ms : option (list nat)) (c : nat) (h : rtest) : R :=
  match nth_error Es c with
  | Some E => expect (ELc EL c) (sample E (mkArgs (Some 1%nat) cl None false false T ms)) (fun t => row_value h t 0)
  | None => 1
  end.
(** Row [n] of a batch as a batch. *)
Definition only_row (e : tensor (option V)) (n : nat) : tensor (option V) :=
  mkT (1%nat :: tl (shape e)) (fun idx => match idx with _ :: r => get e (n :: r) | [] => None end).
Definition comp_given (ms : option (list nat)) (e : tensor (option V)) (c n : nat) (h : rtest) : R :=
  match nth_error Es c with
  | Some E => expect (ELc EL c) (sample E (mkArgs None CNone (Some (only_row e n)) false false 1 ms)) (fun t => row_value h t 0)
  | None => 1
  end.

(** ** Without evidence *)
Definition RTf (h : rtest) (r : tensor (option V)) : R := rprod C (fun c => rprod F (fun f => h c f (get r [c; f]))).

Lemma free_checks E o cl k T ms : accepted g o E -> plain_class g cl ->
  check_args E (mkArgs (V := V) (Some k) cl None false false T ms) = Ok tt /\ class_ok E (mkArgs (V := V) (Some k) cl None false false T ms).
Proof.
  intros A Hcl. pose proof (accepted_K g o E A) as EK. split.
  - unfold check_args. cbn [a_class a_ev a_n]. destruct cl as [|y|l]; cbn; [destruct (e_K E =? 1)%nat; reflexivity| |contradiction].
    destruct Hcl as [H1 H2]. rewrite EK. destruct (Nat.eqb_spec (nval (g_K g)) 1); [lia|reflexivity].
  - unfold class_ok. cbn [a_class]. rewrite EK. destruct cl; auto. contradiction.
Qed.
(** The rows of one call are independent and identically distributed. *)
Lemma comp_rows E o c cl k T ms : accepted g o E -> lf_ctx (leafE E) = true -> nth_error Es c = Some E -> plain_class g cl -> T <> 0 -> (0 < k)%nat ->
  (forall t, outcome (fun _ _ => True) (sample E (mkArgs (Some k) cl None false false T ms)) (Ok t) -> shape t = [k; C; F]) /\
  forall h : nat -> rtest, expect (ELc EL c) (sample E (mkArgs (Some k) cl None false false T ms)) (fun t => rprod k (fun n => row_value (h n) t n)) =
    rprod k (fun n => comp_free cl T ms c (h n)).
Proof.
  intros A Hx Hn Hcl HT Hk. pose proof (accepted_ok g o E A) as HE. destruct (accepted_CF g o E A) as [EC EF]. fold C in EC. fold F in EF.
  pose proof (ELc_ok EL c HEL) as HELc.
  assert (L: forall k h, (0 < k)%nat -> expect (ELc EL c) (sample E (mkArgs (Some k) cl None false false T ms)) (fun t => rprod k (fun n => row_value (h n) t n)) =
    rprod k (fun n => rsum (e_K E) (fun y => cweight E (mkArgs (Some 1%nat) cl None false false T ms) 0 y * neteval (snet E T) (elg (ELc EL c) (fun ch f v => h n ch f (Some v))) y))).
  { intros k0 h Hk0. destruct (free_checks E o cl k0 T ms A Hcl) as [H1 H2].
    destruct (sample_free_law E HE _ HELc _ H1 H2 eq_refl Hk0 eq_refl eq_refl HT Hx) as [O X].
    change (num_samples (mkArgs (V := V) (Some k0) cl None false false T ms)) with k0 in O, X. cbn [a_tsum] in X.
    transitivity (expect (ELc EL c) (sample E (mkArgs (Some k0) cl None false false T ms)) (fun t => rprod3 k0 (e_C E) (e_F E) (fun n c f => h n c f (get t [n; c; f])))).
    { apply expect_ext_outcome; auto. intros t Ht. destruct (O _ _ Ht) as (t' & Z & St & _). assert (t' = t) by congruence. subst t'.
      unfold rprod3, row_value. rewrite EC, EF. apply rprod_ext. intros n _. apply rprod_ext. intros ch _. apply rprod_ext. intros f _. unfold entry. rewrite St. reflexivity. }
    rewrite X. apply rprod_ext. intros n _. apply rsum_ext. intros y _. f_equal.
    unfold cweight. cbn [a_class a_tsum]. destruct cl; [reflexivity|reflexivity|contradiction]. }
  split.
  - intros t Ht. destruct (free_checks E o cl k T ms A Hcl) as [H1 H2].
    destruct (sample_free_law E HE _ HELc _ H1 H2 eq_refl Hk eq_refl eq_refl HT Hx) as [O _].
    destruct (O _ _ Ht) as (t' & Z & St & _). assert (t' = t) by congruence. subst t'. cbn in St. rewrite St, EC, EF. reflexivity.
  - intros h. rewrite (L k h Hk). apply rprod_ext. intros n _. unfold comp_free. rewrite Hn.
    pose proof (L 1%nat (fun _ => h n) ltac:(lia)) as L1. rewrite rprod_S, rprod_0, Rmult_1_l in L1. rewrite <- L1.
    apply expect_ext; auto. intros t. rewrite rprod_S, rprod_0. ring.
Qed.

(** Row [n] of the result comes from component [src n], independently of the other rows. *)
Definition source (cs : list nat) (n : nat) : nat :=
  match permutation_of cs with
  | Ok perm => nth (nth n perm 0%nat) (comps (separate 0 cs [])) 0%nat
  | Err _ => 0%nat
  end.
Lemma mix_free_law cs cl T ms : cs <> [] -> (forall c, In c cs -> (c < length Es)%nat) -> plain_class g cl -> T <> 0 ->
  forall h : nat -> rtest,
  expect EL (mix_sample_free Es (fun k => mkArgs (Some k) cl None false false T ms) cs) (fun t => rprod (length cs) (fun n => row_value (h n) t n)) =
  rprod (length cs) (fun n => comp_free cl T ms (source cs n) (h n)).
Proof.
  intros Hcs Hc Hcl HT h. set (N := length cs). unfold mix_sample_free. set (groups := separate 0 cs []).
  match goal with |- context [draws (map ?f groups)] => set (D := f) end.
  destruct (permutation_of_any cs Hcs) as (perm & Ep & Pp). fold N in Pp.
  destruct (rprod_reindex N perm Pp) as (q & Hq & RI).
  assert (LC: length (comps groups) = N) by (apply Permutation_length, comps_perm).
  assert (LP: length perm = N) by (rewrite (Permutation_length Pp); apply seq_length).
  assert (N0: (0 < N)%nat) by (unfold N; destruct cs; [contradiction|cbn; lia]).
  set (d0 := mkT [] (fun _ => None) : tensor (option V)).
  assert (HB: forall b, In b groups ->
    (forall a, outcome (fun _ _ => True) (D b) (Ok a) -> length (unstack a) = length ((fun '(c, idxs) => repeat c (length idxs)) b) /\ forall u, In u (unstack a) -> shape u = [C; F]) /\
    forall h : nat -> rtest, expect EL (D b) (fun a => iprod d0 (fun i => RTf (h i)) (unstack a)) = iprod 0%nat (fun i c => comp_free cl T ms c (h i)) ((fun '(c, idxs) => repeat c (length idxs)) b)).
  { intros [c idxs] Hin. destruct (group_members Es cs (length cs) c idxs eq_refl Hc Hin) as (Hni & Hc' & _).
    destruct (component_ok Es c Hc') as (E & Ec & En & Ein). destruct (HA E Ein) as (o & A).
    assert (Hk: (0 < length idxs)%nat) by (destruct idxs; [contradiction|cbn; lia]).
    destruct (comp_rows E o c cl (length idxs) T ms A (Hctx E Ein) En Hcl HT Hk) as [Sh Lw].
    cbn [D]. unfold D. rewrite Ec. cbn [lift mbind]. split.
    - intros a Ha. apply outcome_tag in Ha. specialize (Sh a Ha). rewrite repeat_length. unfold unstack. rewrite map_length, seq_length, Sh. split; auto.
      intros u Hu. apply in_map_iff in Hu as (j & <- & _). cbn [trow shape]. rewrite Sh. reflexivity.
    - intros h0. rewrite expect_tag by auto. rewrite iprod_repeat. rewrite <- Lw.
      apply expect_ext_outcome; [apply ELc_ok; auto|]. intros t Ht. specialize (Sh t Ht).
      unfold iprod, unstack. rewrite map_length, seq_length, Sh. cbn [hd]. apply rprod_ext. intros n Hn0. rewrite nth_map_seq by auto.
      unfold RTf, row_value. apply rprod_ext. intros ch _. apply rprod_ext. intros f _. unfold entry. rewrite Sh. reflexivity. }
  rewrite expect_bind by auto.
  transitivity (expect EL (draws (map D groups)) (fun parts => iprod d0 (fun j => RTf (h (q j))) (flat_map unstack parts))).
  - apply expect_ext_outcome; auto. intros parts Ho.
    assert (HP: length (flat_map unstack parts) = N /\ forall u, In u (flat_map unstack parts) -> shape u = [C; F]).
    { rewrite <- LC. clear -Ho HB. revert parts Ho. unfold comps. induction groups as [|b l IH]; intros parts Ho; cbn [map draws] in Ho.
      - apply outcome_ret_inv in Ho. assert (parts = []) as -> by congruence. split; [reflexivity|intros ? []].
      - apply outcome_bind in Ho as [(e & _ & Z)|(a & Ha & Ho)]; [discriminate|].
        apply outcome_bind in Ho as [(e & _ & Z)|(xs & Hx & Ho)]; [discriminate|]. apply outcome_ret_inv in Ho.
        assert (parts = a :: xs) as -> by congruence. destruct (IH (fun b' H' => HB b' (or_intror H')) xs Hx) as [I1 I2].
        destruct (HB b (or_introl eq_refl)) as [B1 _]. destruct (B1 a Ha) as [B2 B3]. cbn [flat_map]. rewrite !app_length. split; [congruence|].
        intros u Hu. apply in_app_or in Hu as [Hu|Hu]; auto. }
    destruct HP as [LR HS].
    destruct (stack_ok (flat_map unstack parts) [C; F]) as (all & Ea & Sa & Ga); auto.
    { intros Z. rewrite Z in LR. cbn in LR. lia. }
    rewrite LR in Sa, Ga.
    assert (Hp: forall j, (j < N)%nat -> (nth j perm 0 < N)%nat).
    { intros j Hj. assert (Hin: In (nth j perm 0%nat) (seq 0 N)) by (eapply Permutation_in; [exact Pp|apply nth_In; lia]). apply in_seq in Hin. lia. }
    destruct (permuted_ok perm all N [C; F] LP Sa Hp) as (y & Ey & Sy & Gy).
    unfold cat_rows. rewrite Ea. cbn [bind]. rewrite Ep. cbn [bind]. rewrite Ey. cbn [lift expect].
    unfold iprod. rewrite LR. rewrite <- (RI (fun n j => RTf (h n) (nth j (flat_map unstack parts) d0))).
    apply rprod_ext. intros n Hn. unfold row_value, RTf. apply rprod_ext. intros ch _. apply rprod_ext. intros f _. f_equal.
    unfold entry. rewrite Sy. cbn [ix]. rewrite Gy by auto. apply Ga. auto.
  - rewrite (draws_rows EL HEL D d0 RTf unstack (fun '(c, idxs) => repeat c (length idxs)) (comp_free cl T ms) groups).
    + fold (comps groups). unfold iprod. rewrite LC. rewrite <- (RI (fun n j => comp_free cl T ms (nth j (comps groups) 0%nat) (h n))).
      apply rprod_ext. intros n _. unfold source. rewrite Ep. reflexivity.
    + intros b Hb. destruct (HB b Hb) as [B1 B2]. split; [intros a Ha; apply (B1 a Ha)|exact B2].
Qed.
Lemma source_perm cs : cs <> [] -> forall G : nat -> R, rprod (length cs) (fun n => G (source cs n)) = lprod G cs.
Proof.
  intros Hcs G. unfold source. destruct (permutation_of_any cs Hcs) as (perm & Ep & Pp). rewrite Ep.
  destruct (rprod_reindex _ perm Pp) as (q & _ & RI). rewrite (RI (fun _ j => G (nth j (comps (separate 0 cs [])) 0%nat))).
  rewrite <- (lprod_perm G _ _ (comps_perm cs)). rewrite <- (Permutation_length (comps_perm cs)). apply (iprod_lprod 0%nat).
Qed.
Lemma source_sorted cs n : cs <> [] -> sorted cs -> (n < length cs)%nat -> source cs n = nth n cs 0%nat.
Proof.
  intros Hcs HS Hn. unfold source. rewrite (permutation_of_sorted cs Hcs HS), (comps_sorted cs HS), seq_nth by auto. reflexivity.
Qed.

(** ** With evidence *)
Lemma only_row_entry (E : einet V) N e n c f : batch E N e -> entry (only_row e n) 0 c f = entry e n c f.
Proof.
  intros [HW _]. unfold entry. cbn [only_row shape get]. destruct (ix_sub _ _ _ _ n c f HW) as (idx & E1 & E2). rewrite E1, E2. reflexivity.
Qed.
Lemma only_row_evidence (E : einet V) N e ms n : evidence E N e ms -> (n < N)%nat -> evidence E 1 (only_row e n) ms.
Proof.
  intros [HB Hms] Hn. pose proof HB as [HW Hv]. split.
  - split; [apply (wshape_sub _ _ _ _ 1 HW); lia|]. intros i c f v Hi Hc Hf He. assert (i = 0%nat) by lia. subst i.
    rewrite (only_row_entry E N) in He by auto. eapply Hv; eauto.
  - destruct ms as [S|]; auto. destruct Hms as [H1 H2]. split; auto. intros i c f Hi Hc Hf Hns. assert (i = 0%nat) by lia. subst i.
    rewrite (only_row_entry E N) by auto. apply H2; auto.
Qed.
Lemma comp_rows_given E o c e ms N idxs t : accepted g o E -> consistent g -> lf_ctx (leafE E) = true -> nth_error Es c = Some E ->
  evidence E N e ms -> idxs <> [] -> (forall j, In j idxs -> (j < N)%nat) -> stack (map (trow e) idxs) = Ok t ->
  (forall u, outcome (fun _ _ => True) (sample E (mkArgs None CNone (Some t) false false 1 ms)) (Ok u) -> shape u = length idxs :: tl (shape e)) /\
  forall h : nat -> rtest,
    expect (ELc EL c) (sample E (mkArgs None CNone (Some t) false false 1 ms)) (fun u => rprod (length idxs) (fun p => row_value (h p) u p)) =
    rprod (length idxs) (fun p => comp_given ms e c (nth p idxs 0%nat) (h p)).
Proof.
  intros A Hco Hx Hn Hev Hni Hlt Et. pose proof (accepted_ok g o E A) as HE. destruct (accepted_CF g o E A) as [EC EF]. fold C in EC. fold F in EF.
  pose proof (ELc_ok EL c HEL) as HELc. pose proof Hev as [HB Hms].
  destruct (sub_batch E N e idxs t HB Hni Hlt Et) as (St & Bt & ENt).
  assert (Hk: (0 < length idxs)%nat) by (destruct idxs; [contradiction|cbn; lia]).
  assert (Hevt: evidence E (length idxs) t ms).
  { split; auto. destruct ms as [S|]; auto. destruct Hms as [H1 H2]. split; auto. intros n c0 f Hn0 Hc0 Hf Hns. rewrite ENt by auto. apply H2; auto. apply Hlt, nth_In. auto. }
  set (W := fun (z : nat -> nat -> option V) (hh : rtest) => rsum (e_K E) (fun y => cweight E (mkArgs (V := V) None CNone None false false 1 ms) 0 y *
       (neteval (fnet E) (fun c0 f l r => match z c0 f with
                                         | Some v => pdf (leaf_of (e_leaf E)) c0 f l r v * hh c0 f (Some v)
                                         | None => ELc EL c [c0; f; l; r] (fun v => hh c0 f (Some v)) end) y /
        neteval (fnet E) (lval (pdf (leaf_of (e_leaf E))) z) y))).
  assert (L: forall k x, evidence E k x ms -> (0 < k)%nat ->
    (forall u, outcome (fun _ _ => True) (sample E (mkArgs None CNone (Some x) false false 1 ms)) (Ok u) -> shape u = shape x) /\
    forall h : nat -> rtest, expect (ELc EL c) (sample E (mkArgs None CNone (Some x) false false 1 ms)) (fun u => rprod k (fun p => row_value (h p) u p)) =
    rprod k (fun p => W (row x ms p) (h p))).
  { intros k x Hx0 Hk0. set (a := mkArgs None CNone (Some x) false false 1 ms).
    assert (EN: num_samples a = k) by (cbn; apply (batch_size E); apply Hx0).
    destruct (sample_evidence_law E HE _ HELc a x eq_refl) as [O X]; auto.
    { unfold check_args. cbn. destruct (e_K E =? 1)%nat; reflexivity. }
    { rewrite EN. apply evidence_input. auto. }
    { rewrite EN. auto. }
    rewrite EN in O, X. split.
    - intros u Hu. destruct (O _ _ Hu) as (u' & Z & Su & _). assert (u' = u) by congruence. subst u'. exact Su.
    - intros h. specialize (X (agree_groups g o E A Hco)). etransitivity; [|etransitivity; [exact (X h)|]].
      + apply expect_ext; auto. intros u. unfold rprod3, row_value. rewrite EC, EF. reflexivity.
      + reflexivity. }
  destruct (L _ _ Hevt Hk) as [L1 L2]. split.
  - intros u Hu. rewrite (L1 u Hu). exact St.
  - intros h. rewrite L2. apply rprod_ext. intros p Hp. assert (Hj: (nth p idxs 0 < N)%nat) by (apply Hlt, nth_In; auto).
    unfold comp_given. rewrite Hn. destruct (L 1%nat (only_row e (nth p idxs 0%nat)) (only_row_evidence E N e ms _ Hev Hj) ltac:(lia)) as [_ L3].
    specialize (L3 (fun _ => h p)). rewrite rprod_S, rprod_0, Rmult_1_l in L3.
    transitivity (W (row (only_row e (nth p idxs 0%nat)) ms 0) (h p)).
    + unfold W. apply rsum_ext. intros y Hy. f_equal.
      assert (ER: forall c0 f, row t ms p c0 f = row (only_row e (nth p idxs 0%nat)) ms 0 c0 f).
      { intros c0 f. unfold row. rewrite ENt by auto. rewrite (only_row_entry E N) by auto. reflexivity. }
      unfold Rdiv. apply (f_equal2 Rmult); [|apply (f_equal Rinv)]; (apply neteval_ext; [apply fnet_wf; auto|exact Hy|]); intros c0 f l r _ _ _ _; unfold lval; rewrite ER; reflexivity.
    + rewrite <- L3. apply expect_ext; auto. intros u. rewrite rprod_S, rprod_0. ring.
Qed.

Lemma NoDup_fst_inj {A B} (l : list (A * B)) a b b' : NoDup (map fst l) -> In (a, b) l -> In (a, b') l -> b = b'.
Proof.
  induction l as [|[x y] l IH]; cbn [map fst]; intros ND H1 H2; [destruct H1|]. inversion ND; subst.
  destruct H1 as [H1|H1], H2 as [H2|H2]; try congruence.
  - exfalso. apply H3. assert (x = a) by congruence. subst. apply (in_map fst) in H2. exact H2.
  - exfalso. apply H3. assert (x = a) by congruence. subst. apply (in_map fst) in H1. exact H1.
  - auto.
Qed.
Lemma mix_given_law (pred : tensor (option V) -> option (list nat) -> list nat) e ms N :
  consistent g -> (forall E, In E Es -> evidence E N e ms) -> (0 < N)%nat -> length (pred e ms) = N -> (forall c, In c (pred e ms) -> (c < length Es)%nat) ->
  forall h : nat -> rtest,
  expect EL (mix_sample_given Es pred (fun d => mkArgs None CNone (Some d) false false 1 ms) e ms) (fun t => rprod N (fun n => row_value (h n) t n)) =
  rprod N (fun n => comp_given ms e (nth n (pred e ms) 0%nat) n (h n)).
Proof.
  intros Hco Hb HN HL Hc h. set (cs := pred e ms) in *. unfold mix_sample_given. fold cs. set (groups := separate 0 cs []) in *.
  assert (Hne: Es <> []).
  { intros Z. destruct cs as [|c cs'] eqn:Ec; [cbn in HL; lia|]. specialize (Hc c (or_introl eq_refl)). rewrite Z in Hc. cbn in Hc. lia. }
  assert (HW: wshape (shape e) N C F).
  { destruct Es as [|E0 Es'] eqn:EE; [contradiction|]. destruct (HA E0 (or_introl eq_refl)) as (o & A).
    unfold C, F. destruct (accepted_CF g o E0 A) as [<- <-]. apply (Hb E0). left. auto. }
  set (s := tl (shape e)).
  assert (Es': shape e = N :: s) by (apply (wshape_sub _ _ _ _ 1 HW); lia).
  match goal with |- context [draws (map ?f groups)] => set (D := f) end.
  set (RT := fun (p : nat * tensor (option V)) => rprod C (fun c => rprod F (fun f => h (fst p) c f (get (snd p) (tl (ix (shape e) 0 c f)))))).
  assert (HT: forall i c f, tl (ix (shape e) i c f) = tl (ix (shape e) 0 c f)).
  { intros i c f. destruct (ix_sub _ _ _ _ i c f HW) as (idx & X1 & X2). rewrite X1. rewrite Es' at 1. rewrite X2. reflexivity. }
  assert (HB: forall b, In b groups ->
    (forall a, outcome (fun _ _ => True) (D b) (Ok a) -> map fst a = snd b /\ forall i r, In (i, r) a -> shape r = s) /\
    expect EL (D b) (lprod RT) = lprod (fun n => comp_given ms e (nth n cs 0%nat) n (h n)) (snd b)).
  { intros [c idxs] Hin. destruct (group_members Es cs N c idxs HL Hc Hin) as (Hni & Hc' & Hj).
    assert (Hlt: forall j, In j idxs -> (j < N)%nat) by (intros; apply Hj; auto).
    destruct (component_ok Es c Hc') as (E & Ec & En & Ein). destruct (HA E Ein) as (o & A).
    destruct (stack_ok (map (trow e) idxs) (tl (shape e))) as (t & Et & _).
    { destruct idxs; [contradiction|discriminate]. }
    { intros u Hu. apply in_map_iff in Hu as (j & <- & _). reflexivity. }
    destruct (comp_rows_given E o c e ms N idxs t A Hco (Hctx E Ein) En (Hb E Ein) Hni Hlt Et) as [Sh Lw]. fold s in Sh.
    unfold D. rewrite Et. cbn [lift mbind]. rewrite Ec. cbn [lift mbind snd].
    assert (LU: forall u : tensor (option V), shape u = length idxs :: s -> length idxs = length (unstack u)).
    { intros u Hu. unfold unstack. rewrite map_length, seq_length, Hu. reflexivity. }
    split.
    - intros a Ha. apply outcome_bind in Ha as [(e' & _ & Z)|(u & Hu & Ha)]; [discriminate|]. apply outcome_tag in Hu. specialize (Sh u Hu).
      apply outcome_ret_inv in Ha. assert (a = combine idxs (unstack u)) as -> by congruence. split; [apply map_fst_combine; auto|].
      intros i r Hir. apply in_combine_r in Hir. apply in_map_iff in Hir as (j & <- & _). cbn [trow shape]. rewrite Sh. reflexivity.
    - rewrite expect_bind by auto. rewrite expect_tag by auto. cbn [expect].
      transitivity (rprod (length idxs) (fun p => comp_given ms e c (nth p idxs 0%nat) (h (nth p idxs 0%nat)))).
      + rewrite <- (Lw (fun p => h (nth p idxs 0%nat))). apply expect_ext_outcome; [apply ELc_ok; auto|]. intros u Hu. specialize (Sh u Hu).
        pose proof (LU u Sh) as LUu. set (dd := (0%nat, mkT [] (fun _ => None)) : nat * tensor (option V)).
        transitivity (rprod (length idxs) (fun p => RT (nth p (combine idxs (unstack u)) dd))).
        { transitivity (rprod (length (combine idxs (unstack u))) (fun p => RT (nth p (combine idxs (unstack u)) dd))).
          - clear. induction (combine idxs (unstack u)) as [|a l IH]; cbn [length lprod]; [rewrite rprod_0; reflexivity|].
            rewrite (rprod_add 1 (length l)). rewrite rprod_S, rprod_0. change (fun j => RT (nth (1 + j) (a :: l) dd)) with (fun j => RT (nth j l dd)). rewrite IH. cbn [nth]. ring.
          - rewrite combine_length, <- LUu, Nat.min_id. reflexivity. }
        apply rprod_ext. intros p Hp. unfold dd. rewrite combine_nth by auto. unfold RT, row_value. cbn [fst snd].
        apply rprod_ext. intros ch _. apply rprod_ext. intros f _. f_equal. unfold unstack. rewrite Sh. cbn [hd]. rewrite nth_map_seq by auto.
        cbn [trow get]. unfold entry. rewrite Sh. destruct (ix_sub _ _ _ _ 0 ch f HW) as (idx & X1 & X2). rewrite X1. fold s in X2. rewrite X2. reflexivity.
      + pose proof (iprod_lprod 0%nat (fun n => comp_given ms e (nth n cs 0%nat) n (h n)) idxs) as X. unfold iprod in X. rewrite <- X.
        apply rprod_ext. intros p Hp. destruct (Hj (nth p idxs 0%nat)) as [_ Ej]; [apply nth_In; auto|]. rewrite Ej. reflexivity. }
  rewrite expect_bind by auto.
  transitivity (expect EL (draws (map D groups)) (fun parts => lprod RT (concat parts))).
  - apply expect_ext_outcome; auto. intros parts Ho.
    assert (HP: map fst (concat parts) = flat groups /\ forall i r, In (i, r) (concat parts) -> shape r = s).
    { clear -Ho HB. revert parts Ho. unfold flat. induction groups as [|b l IH]; intros parts Ho; cbn [map draws] in Ho.
      - apply outcome_ret_inv in Ho. assert (parts = []) as -> by congruence. split; [reflexivity|intros ? ? []].
      - apply outcome_bind in Ho as [(e' & _ & Z)|(a & Ha & Ho)]; [discriminate|].
        apply outcome_bind in Ho as [(e' & _ & Z)|(xs & Hx & Ho)]; [discriminate|]. apply outcome_ret_inv in Ho.
        assert (parts = a :: xs) as -> by congruence. destruct (IH (fun b' H' => HB b' (or_intror H')) xs Hx) as [I1 I2].
        destruct (HB b (or_introl eq_refl)) as [B1 _]. destruct (B1 a Ha) as [B2 B3]. cbn [concat flat_map]. rewrite map_app. split; [congruence|].
        intros i r Hu. apply in_app_or in Hu as [Hu|Hu]; eauto. }
    destruct HP as [Hfst HS].
    assert (Pf: Permutation (map fst (concat parts)) (seq 0 N)) by (rewrite Hfst; unfold groups; rewrite <- HL; apply groups_flat).
    destruct (reassemble (concat parts) N s Pf HN HS) as (y & Ey & Sy & Gy). cbv zeta. rewrite Ey. cbn [lift expect].
    assert (ND: NoDup (map fst (concat parts))) by (eapply Permutation_NoDup; [symmetry; exact Pf|apply seq_NoDup]).
    transitivity (lprod (fun p => row_value (h (fst p)) y (fst p)) (concat parts)).
    + rewrite <- (lprod_map fst (fun n => row_value (h n) y n)). unfold rprod. apply lprod_perm. symmetry. exact Pf.
    + apply lprod_ext. intros [i r] Hir. cbn [fst]. unfold RT, row_value. cbn [fst snd].
      assert (Hi: (i < N)%nat). { apply (in_map fst) in Hir. eapply Permutation_in in Hir; [|exact Pf]. apply in_seq in Hir. cbn in Hir. lia. }
      destruct (Gy i Hi) as (r' & Hr' & Hg). assert (r' = r) by (eapply NoDup_fst_inj; eauto). subst r'.
      apply rprod_ext. intros ch _. apply rprod_ext. intros f _. f_equal. unfold entry. replace (shape y) with (shape e) by congruence.
      destruct (ix_sub _ _ _ _ i ch f HW) as (idx & X1 & _). rewrite <- (HT i). rewrite X1. cbn [tl]. apply Hg.
  - rewrite (draws_parts EL HEL D RT snd (fun n => comp_given ms e (nth n cs 0%nat) n (h n)) groups (fun b Hb0 => proj2 (HB b Hb0))).
    fold (flat groups). unfold rprod. apply lprod_perm. unfold groups. rewrite <- HL. apply groups_flat.
Qed.
End Law.

(** * The component weights *)
Definition weights_ok (ws : list R) : Prop := (forall w, In w ws -> 0 <= w) /\ 0 < lsum (fun w => w) ws.
Lemma pval_nlog p : 0 <= p -> pval (nlog (Fin p)) = p.
Proof. intros [H|<-]; [rewrite nlog_pos by auto; cbn; apply exp_ln; auto|rewrite nlog_zero; reflexivity]. Qed.
Lemma weight_prob ws i : weights_ok ws -> (i < length ws)%nat ->
  catp (map (fun p => nlog (Fin p)) ws) i = nth i ws 0 / lsum (fun w => w) ws.
Proof.
  intros [H1 H2] Hi. unfold catp. f_equal.
  - rewrite nth_indep with (d' := nlog (Fin 0)) by (rewrite map_length; auto). rewrite (map_nth (fun p => nlog (Fin p))). apply pval_nlog, H1, nth_In. auto.
  - f_equal. rewrite lsum_map. apply lsum_ext. intros w Hw. apply pval_nlog, H1. auto.
Qed.
Lemma weights_total ws : weights_ok ws -> rsum (length ws) (fun i => nth i ws 0 / lsum (fun w => w) ws) = 1.
Proof.
  intros [H1 H2]. unfold Rdiv. rewrite rsum_scal_r. rewrite <- (Rinv_r (lsum (fun w => w) ws)) by lra. f_equal.
  clear. induction ws as [|w ws IH]; [reflexivity|]. cbn [length lsum]. rewrite <- IH. rewrite (rsum_add 1 (length ws)), rsum_1. reflexivity.
Qed.
(** The drawn clusters are independent. *)
Lemma clusters_law {V} (EL : list nat -> (V -> R) -> R) nc ws n (G : nat -> R) : leaf_expectation EL -> weights_ok ws ->
  expect EL (mix_clusters nc ws n None false) (fun cs => lprod G cs) = rsum (length ws) (fun k => nth k ws 0 / lsum (fun w => w) ws * G k) ^ n.
Proof.
  intros HEL HW. unfold mix_clusters. induction n as [|n IH]; cbn [repeat draws pow].
  - reflexivity.
  - rewrite expect_bind by auto. cbn [expect]. rewrite map_length, <- IH, <- rsum_scal_r. apply rsum_ext. intros i Hi.
    rewrite weight_prob by auto. rewrite Rmult_assoc. f_equal. rewrite expect_bind by auto. cbn [expect lprod]. apply expect_scal. auto.
Qed.
