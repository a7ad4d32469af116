(** C84: the evaluation loop reports the loss and the accuracy of the whole data set, and the training loop is a run of the optimizer over it. *)
From Coq Require Import List Arith Lia Bool ZArith Reals Lra Permutation.
Import ListNotations.
From Verif Require Import Base RSum Num Tensor Prob Layers Circuit Net RefFwd Leaf RefLeaf TypeChecks Einet RefNet RefEinet RefEinetS Build RefBuild Spec RefSpec RefSpecS Family Cluster PropCluster Train RefTrain PropTrain PropForward Step PropStep LeafStep RefLeafStep PropLeafStep Loop RefLoop Ex.
Local Open Scope R_scope.

(** * Evaluation *)
(** The order in which a loader visits [N] rows *)
Definition visits (N : nat) (order : list nat) : Prop := Permutation order (seq 0 N).
(** Rows whose label is the predicted class [ps] *)
Definition share_correct (N : nat) (ps : nat -> nat) (labels : tensor nat) : R := mean N (fun n => if (ps n =? get labels [n])%nat then 1 else 0).

Lemma visits_in N order i : visits N order -> In i order -> (i < N)%nat.
Proof. intros P H. apply (Permutation_in i P) in H. apply in_seq in H. lia. Qed.
Lemma visits_length N order : visits N order -> length order = N.
Proof. intros P. rewrite (Permutation_length P). apply seq_length. Qed.
Lemma visits_sum N order f : visits N order -> lsum f order = rsum N f.
Proof. intros P. apply lsum_perm. exact P. Qed.
Lemma count_sum {A} (P : A -> bool) l : INR (length (filter P l)) = lsum (fun n => if P n then 1 else 0) l.
Proof. induction l as [|a l IH]; [reflexivity|]. cbn [filter lsum]. destruct (P a); [cbn [length]; rewrite S_INR|]; rewrite IH; ring. Qed.

(** The average loss is the mean over all rows of minus the log-density, and the accuracy is the share of the rows whose label is the first most likely
    class, in percent.  Neither the order of the rows nor the batch size matters, as long as no batch has a single row. *)
Theorem C84_report : forall V g o (E : einet V) N x labels classification bs order, accepted g o E -> batch E N x -> (0 < N)%nat -> (0 < bs)%nat -> visits N order ->
  (N mod bs <> 1 mod bs)%nat ->
  exists batches ps acc, loader bs order x labels = Ok batches /\ (forall n, (n < N)%nat -> predicts E x n (ps n)) /\
    test classification E N batches = Ok (Fin (- mean N (fun n => ln (marg E x n))), acc) /\
    acc = (if classification then Some (Fin (100 * share_correct N ps labels)) else None).
Proof.
  intros V g o E N x labels cl bs order A HB HN Hb HV HM. set (cs := chunks bs order).
  assert (CC: concat cs = order) by (apply chunks_concat; auto). pose proof (visits_length N order HV) as LO.
  assert (HF: Forall (fun c => (1 < length c)%nat) cs).
  { apply Forall_forall. intros c Hc. pose proof (proj1 (Forall_forall _ _) (chunks_sizes bs order Hb) c Hc) as [L1 _]. cbn beta in L1.
    destruct (Nat.eq_dec (length c) 1) as [L|L]; [|lia]. exfalso. apply HM. rewrite <- LO. apply (chunks_single bs order Hb). apply Exists_exists. exists c. auto. }
  exists (map (fun idxs => (collate x idxs, collate labels idxs)) cs), (guess E x), (if cl then Some (Fin (100 * share_correct N (guess E x) labels)) else None).
  split; [unfold loader; destruct (Nat.eqb_spec bs 0); [lia|reflexivity]|]. split; [intros n Hn; apply (guess_predicts g o E A N x HB n Hn)|]. split; [|reflexivity].
  unfold test. rewrite (test_steps_ok g o E A N x HB cl labels cs HF) with (l0 := 0) by (try reflexivity; rewrite CC; intros i Hi; apply (visits_in N order i HV Hi)).
  cbn [bind ta_losses ta_correct ta_total ta_loss]. rewrite CC, LO. rewrite !Nat.add_0_l.
  assert (LS: ndiv (Fin (0 - lsum (fun n => ln (marg E x n)) order)) (Fin (INR N)) = Fin (- mean N (fun n => ln (marg E x n)))).
  { rewrite ndiv_fin by auto. f_equal. rewrite (visits_sum N order _ HV). unfold mean. field. apply not_0_INR. lia. }
  assert (NZ: negb (N =? 0)%nat = true) by (destruct (Nat.eqb_spec N 0); [lia|reflexivity]).
  destruct cl; cbn [bind]; rewrite ?NZ; cbn [guard bind]; rewrite LS; [|reflexivity]. do 4 f_equal.
  rewrite ndiv_fin by auto. f_equal. unfold hits. rewrite count_sum, (visits_sum N order _ HV). unfold share_correct, mean. field. apply not_0_INR. lia.
Qed.
Print Assumptions C84_report.

(** A batch of a single row ends the evaluation with TypeError: squeeze() leaves no dimension, and the float that tolist() returns cannot be added to a
    list (main.py:123). *)
Theorem C84_single_refuted : forall V g o (E : einet V) N x labels classification bs order, accepted g o E -> batch E N x -> (0 < N)%nat -> (0 < bs)%nat -> visits N order ->
  (N mod bs = 1 mod bs)%nat -> exists batches, loader bs order x labels = Ok batches /\ test classification E N batches = Err TypeErr.
Proof.
  intros V g o E N x labels cl bs order A HB HN Hb HV HM. set (cs := chunks bs order).
  assert (CC: concat cs = order) by (apply chunks_concat; auto). pose proof (visits_length N order HV) as LO.
  exists (map (fun idxs => (collate x idxs, collate labels idxs)) cs). split; [unfold loader; destruct (Nat.eqb_spec bs 0); [lia|reflexivity]|].
  unfold test. rewrite (test_steps_single g o E A N x HB cl labels cs) with (l0 := 0); [reflexivity| | | |reflexivity].
  - eapply Forall_impl; [|apply (chunks_sizes bs order Hb)]. cbn beta. lia.
  - apply chunks_single; auto. rewrite LO. split; auto. intros ->. cbn in LO. lia.
  - rewrite CC. intros i Hi. apply (visits_in N order i HV Hi).
Qed.
Print Assumptions C84_single_refuted.

(** Without rows nothing is reported; without a batch size there is no loader. *)
Theorem C84_empty : forall V (E : einet V) x labels classification bs,
  ((0 < bs)%nat -> exists batches, loader bs [] x labels = Ok batches /\ test classification E 0 batches = Err ZeroDivErr) /\
  (forall order, loader 0 order x labels = Err ValueErr).
Proof.
  intros V E x labels cl bs. split; [|reflexivity]. intros Hb. exists []. unfold loader. destruct (Nat.eqb_spec bs 0); [lia|]. split; [reflexivity|]. destruct cl; reflexivity.
Qed.
Print Assumptions C84_empty.

Lemma lsum_rsum_swap {A} n (l : list A) (f : A -> nat -> R) : lsum (fun a => rsum n (f a)) l = rsum n (fun i => lsum (fun a => f a i) l).
Proof. unfold rsum. apply lsum_swap. Qed.
(** * The losses of the batches *)
Lemma batch_loss V g o (E : einet V) N x labels idxs : accepted g o E -> batch E N x -> (0 < length idxs)%nat -> (forall i, In i idxs -> (i < N)%nat) ->
  loss_is (train_loss E false (collate x idxs) (collate labels idxs)) (- (lsum (fun n => ln (marg E x n)) idxs / INR (length idxs))).
Proof.
  intros A HB HL HI. pose proof (C61_generative V g o E _ _ (collate labels idxs) A (collate_batch E N x HB idxs HL HI) HL) as H. unfold loss_is in *. rewrite H. do 2 f_equal. unfold mean. f_equal. f_equal.
  rewrite <- (lsum_nth 0%nat). apply rsum_ext. intros n Hn. f_equal. apply (collate_marg g o E A N x HB); auto.
Qed.
(** Every row is in exactly one batch, and the loss of the data set is the mean of the batches' losses weighted by their sizes. *)
Theorem C84_weighted : forall V g o (E : einet V) N x labels bs order, accepted g o E -> batch E N x -> (0 < N)%nat -> (0 < bs)%nat -> visits N order ->
  exists batches losses, loader bs order x labels = Ok batches /\ Forall2 (fun b l => loss_is (train_loss E false (fst b) (snd b)) l) batches losses /\
    Forall (fun b => 0 < size (fst b) 0 <= bs)%nat batches /\ lsum (fun b => INR (size (fst b) 0)) batches = INR N /\
    - mean N (fun n => ln (marg E x n)) = lsum (fun bl => INR (size (fst (fst bl)) 0) / INR N * snd bl) (combine batches losses).
Proof.
  intros V g o E N x labels bs order A HB HN Hb HV. set (cs := chunks bs order). assert (CC: concat cs = order) by (apply chunks_concat; auto). pose proof (visits_length N order HV) as LO.
  pose proof (chunks_sizes bs order Hb) as SZ. fold cs in SZ. assert (HI: forall i, In i (concat cs) -> (i < N)%nat) by (rewrite CC; intros i Hi; apply (visits_in N order i HV Hi)).
  exists (map (fun idxs => (collate x idxs, collate labels idxs)) cs), (map (fun idxs => - (lsum (fun n => ln (marg E x n)) idxs / INR (length idxs))) cs).
  pose proof (lt_0_INR N HN) as NP. split; [unfold loader; destruct (Nat.eqb_spec bs 0); [lia|reflexivity]|]. split; [|split; [|split]].
  - revert SZ HI. clear - A HB. induction cs as [|c cs IH]; intros SZ HI; cbn [map]; [constructor|]. inversion SZ; subst. constructor.
    + cbn [fst snd]. apply (batch_loss V g o E N); auto; [lia|]. intros i Hi. apply HI. cbn [concat]. apply in_or_app. auto.
    + apply IH; auto. intros i Hi. apply HI. cbn [concat]. apply in_or_app. auto.
  - apply Forall_forall. intros b Hin. apply in_map_iff in Hin as (c & <- & Hc). unfold size. cbn [fst collate shape nth]. exact (proj1 (Forall_forall _ _) SZ c Hc).
  - rewrite lsum_map. unfold size. cbn [fst collate shape nth]. rewrite <- LO, <- CC. clear. induction cs as [|c cs IH]; [reflexivity|]. cbn [lsum concat]. rewrite IH, app_length, plus_INR. reflexivity.
  - unfold mean. rewrite <- (visits_sum N order _ HV), <- CC. clear CC HI. assert (Q: forall N', N' <> 0 -> - (lsum (fun n => ln (marg E x n)) (concat cs) / N') =
      lsum (fun bl => INR (size (fst (fst bl)) 0) / N' * snd bl) (combine (map (fun idxs => (collate x idxs, collate labels idxs)) cs) (map (fun idxs => - (lsum (fun n => ln (marg E x n)) idxs / INR (length idxs))) cs))); [|apply Q; lra].
    intros N' HN'. clear - SZ HN'. induction cs as [|c cs IH]; cbn [map combine lsum concat]; [unfold Rdiv; ring|]. inversion SZ as [|? ? [S1 _] S2]; subst. rewrite <- IH by auto.
    unfold size. cbn [fst snd collate shape nth]. rewrite lsum_app. apply lt_0_INR in S1. field. split; lra.
Qed.
Print Assumptions C84_weighted.

(** With a random order in which every position holds every row with the same probability, the expected loss of every batch is the loss of the data set. *)
Theorem C84_unbiased : forall V g o (E : einet V) N x labels bs (orders : list (list nat)) (w : list nat -> R) j, accepted g o E -> batch E N x -> (0 < N)%nat -> (0 < bs)%nat ->
  (forall order, In order orders -> visits N order) ->
  (forall i n, (i < N)%nat -> (n < N)%nat -> lsum (fun order => w order * (if (nth i order 0 =? n)%nat then 1 else 0)) orders = 1 / INR N) -> (j * bs < N)%nat ->
  exists L : list nat -> R, (forall order, In order orders -> exists batches b, loader bs order x labels = Ok batches /\ nth_error batches j = Some b /\ loss_is (train_loss E false (fst b) (snd b)) (L order)) /\
    lsum (fun order => w order * L order) orders = - mean N (fun n => ln (marg E x n)).
Proof.
  intros V g o E N x labels bs orders w j A HB HN Hb HV HU Hj. pose proof (lt_0_INR N HN) as NP. set (m := Nat.min bs (N - j * bs)). assert (Hm: (0 < m)%nat) by (unfold m; lia). pose proof (lt_0_INR m Hm) as MP.
  set (f := fun n => ln (marg E x n)). set (cut := fun order : list nat => firstn bs (skipn (j * bs) order)).
  assert (CL: forall order, In order orders -> length (cut order) = m) by (intros order Hin; unfold cut, m; rewrite firstn_length, skipn_length, (visits_length N) by auto; reflexivity).
  assert (CN: forall order i, In order orders -> (i < m)%nat -> nth i (cut order) 0%nat = nth (j * bs + i) order 0%nat).
  { intros order i Hin Hi. unfold cut. rewrite <- (firstn_skipn (j * bs) order) at 2. assert (LF: length (firstn (j * bs) order) = (j * bs)%nat) by (rewrite firstn_length, (visits_length N order) by auto; lia).
    rewrite app_nth2 by lia. rewrite LF. replace (j * bs + i - j * bs)%nat with i by lia.
    rewrite <- (firstn_skipn bs (skipn (j * bs) order)) at 2. rewrite app_nth1; [reflexivity|]. pose proof (CL order Hin) as C. unfold cut in C. lia. }
  exists (fun order => - (rsum m (fun i => f (nth (j * bs + i) order 0%nat)) / INR m)). split.
  - intros order Hin. exists (map (fun idxs => (collate x idxs, collate labels idxs)) (chunks bs order)), (collate x (cut order), collate labels (cut order)).
    split; [unfold loader; destruct (Nat.eqb_spec bs 0); [lia|reflexivity]|]. split.
    + rewrite nth_error_map, chunks_nth by auto. rewrite (visits_length N order) by auto. destruct (Nat.ltb_spec (j * bs) N); [reflexivity|lia].
    + cbn [fst snd]. pose proof (batch_loss V g o E N x labels (cut order) A HB) as B. rewrite (CL order Hin) in B. unfold loss_is in *. rewrite B; auto.
      * do 3 f_equal. f_equal. rewrite <- (lsum_nth 0%nat), (CL order Hin). apply rsum_ext. intros i Hi. rewrite CN by auto. reflexivity.
      * intros i Hi. apply (visits_in N order i (HV order Hin)). unfold cut in Hi. rewrite <- (firstn_skipn (j * bs) order). apply in_or_app. right. rewrite <- (firstn_skipn bs). apply in_or_app. left. exact Hi.
  - assert (PT: forall i, (i < m)%nat -> lsum (fun order => w order * f (nth (j * bs + i) order 0%nat)) orders = rsum N f / INR N).
    { intros i Hi. rewrite (lsum_ext _ (fun order => rsum N (fun n => f n * (w order * (if (nth (j * bs + i) order 0 =? n)%nat then 1 else 0))))).
      - rewrite lsum_rsum_swap. unfold Rdiv. rewrite <- rsum_scal_r. apply rsum_ext. intros n Hn. rewrite lsum_scal_l, HU by (auto; unfold m in Hi; lia). unfold Rdiv. ring.
      - intros order Hin. assert (HO: (nth (j * bs + i) order 0 < N)%nat) by (apply (visits_in N order _ (HV order Hin)), nth_In; rewrite (visits_length N order) by auto; unfold m in Hi; lia).
        rewrite <- (rsum_indicator N (nth (j * bs + i) order 0)%nat (fun n => w order * f n) HO). apply rsum_ext. intros n _. rewrite Nat.eqb_sym. destruct (nth (j * bs + i) order 0 =? n)%nat; ring. }
    rewrite (lsum_ext _ (fun order => - / INR m * rsum m (fun i => w order * f (nth (j * bs + i) order 0%nat)))) by (intros order _; rewrite rsum_scal_l; unfold Rdiv; ring).
    rewrite lsum_scal_l, lsum_rsum_swap, (rsum_ext m _ (fun _ => rsum N f / INR N)) by auto. rewrite rsum_const. unfold mean. fold f. field. split; lra.
Qed.
Print Assumptions C84_unbiased.

(** * Training *)
(** The number of batches that one epoch uses: all of them, at most three with --debug, one with --dry-run *)
Definition used (a : targs) (n : nat) : nat := if t_dry a then Nat.min 1 n else if t_debug a then Nat.min 3 n else n.
(** The batches of an epoch: some rows of a data set that fits the network, with labels if it is a classification *)
Definition epoch_ok {V} (E : einet V) (a : targs) (batches : list (tensor (option V) * tensor nat)) : Prop :=
  Forall (fun b => exists N, (0 < N)%nat /\ batch E N (fst b) /\ (t_classification a = true -> (1 < e_K E)%nat /\ labelled (e_K E) N (snd b))) batches.
(** The steps are the gradients of the batches at the states that they meet. *)
Fixpoint follows {V} (fam : family V) (h : hyper) (lr : R) (backward : full V -> tensor (option V) * tensor nat -> grads) (T : full V) (batches : list (tensor (option V) * tensor nat)) (steps : list full_step) : Prop :=
  match batches, steps with
  | [], [] => True
  | b :: batches, s :: steps => s = mkFs lr (gr_G (backward T b)) (gr_Gm (backward T b)) (gr_Gp (backward T b)) /\ follows fam h lr backward (adam_full fam h T s) batches steps
  | _, _ => False
  end.
Lemma follows_app {V} (fam : family V) h lr bw bs1 : forall T bs2 s1 s2, follows fam h lr bw T bs1 s1 -> follows fam h lr bw (fold_left (adam_full fam h) s1 T) bs2 s2 -> follows fam h lr bw T (bs1 ++ bs2) (s1 ++ s2).
Proof.
  induction bs1 as [|b bs1 IH]; intros T bs2 [|s s1] s2 H1 H2; cbn [follows app fold_left] in *; try tauto. destruct H1 as [-> H1]. split; auto.
Qed.
Lemma follows_length {V} (fam : family V) h lr bw bs : forall T s, follows fam h lr bw T bs s -> length s = length bs.
Proof. induction bs as [|b bs IH]; intros T [|s st] H; cbn [follows length] in *; try tauto. destruct H as [_ H]. f_equal. eauto. Qed.
Lemma follows_rates {V} (fam : family V) h lr bw bs : forall T s, follows fam h lr bw T bs s -> Forall (fun s => fs_lr s = lr) s.
Proof. induction bs as [|b bs IH]; intros T [|s st] H; cbn [follows] in *; try tauto; constructor. { destruct H as [-> _]. reflexivity. } destruct H as [_ H]. eauto. Qed.

Section Run.
Context {V : Type} (fam : family V) (smooth : (nat -> R) -> Prop) (score : (nat -> R) -> V -> nat -> R) (h : hyper) (g : config) (o : oracle V) (E : einet V) (th : list nat -> nat -> R) (a : targs).
Variable bw : full V -> tensor (option V) * tensor nat -> grads.
Hypothesis HS : scored fam smooth score.
Hypothesis Hh : hyper_ok h.
Hypothesis A : accepted g o E.
Hypothesis HL : leafE E = fam_leaf fam th.
Hypothesis Hlr : 0 <= t_lr a.
(** Any state of a run has the losses of the batches. *)
Definition reached (T : full V) : Prop := exists steps, T = full_run fam h E th steps /\ Forall (fun s => 0 <= fs_lr s) steps.
Lemma run_sizes steps : let E' := tr_net (fu_tr (full_run fam h E th steps)) in e_C E' = e_C E /\ e_F E' = e_F E /\ e_K E' = e_K E.
Proof.
  cbn zeta. induction steps as [|s steps IH] using rev_ind; [auto|]. unfold full_run in *. rewrite fold_left_app. cbn [fold_left]. exact IH.
Qed.
Lemma reached_net T : reached T -> (exists o', accepted g o' (tr_net (fu_tr T))) /\ (forall N x, batch E N x -> batch (tr_net (fu_tr T)) N x) /\ e_K (tr_net (fu_tr T)) = e_K E.
Proof.
  intros (steps & -> & HF). destruct (C83_run V fam smooth score h g o E th steps HS Hh A HL HF) as (L & _ & o' & A' & _). destruct (run_sizes steps) as (SC & SF & SK). cbn zeta in SC, SF, SK.
  split; [eauto|]. split; [|exact SK]. intros N x [W S]. split; [rewrite SC, SF; auto|]. intros n c f v Hn Hc Hf He. rewrite L, (sc_supp _ _ _ HS _ th), <- HL. rewrite SC in Hc. rewrite SF in Hf. apply (S n c f); auto.
Qed.
Lemma step_reached T b : reached T -> (exists N, (0 < N)%nat /\ batch E N (fst b) /\ (t_classification a = true -> (1 < e_K E)%nat /\ labelled (e_K E) N (snd b))) ->
  let s := mkFs (t_lr a) (gr_G (bw T b)) (gr_Gm (bw T b)) (gr_Gp (bw T b)) in train_step fam h a bw T b = Ok (adam_full fam h T s) /\ reached (adam_full fam h T s).
Proof.
  intros HT (N & HN & HB & HC) s. destruct (reached_net T HT) as ((o' & A') & HBT & SK). split.
  - unfold train_step. assert (Q: exists l, train_loss (tr_net (fu_tr T)) (t_classification a) (fst b) (snd b) = Ok (Fin l)).
    { destruct (t_classification a).
      - destruct (HC eq_refl) as [K1 LB]. destruct (C62_classification V g o' _ N (fst b) (snd b) A' (HBT N _ HB) HN ltac:(rewrite SK; auto) ltac:(rewrite SK; auto)) as (l & _ & _ & _ & EL & _). exists l. exact EL.
      - eexists. exact (C61_generative V g o' _ N (fst b) (snd b) A' (HBT N _ HB) HN). }
    destruct Q as [l ->]. reflexivity.
  - destruct HT as (steps & -> & HF). exists (steps ++ [s]). split; [unfold full_run; rewrite fold_left_app; reflexivity|]. apply Forall_app. split; auto.
Qed.
Lemma loop_used bs : forall i T, reached T -> epoch_ok E a bs -> (0 < t_log a)%nat ->
  (* how many batches are left to use *)
  let k := if t_dry a then Nat.min (if (i mod t_log a =? 0)%nat then 1 else length bs)%nat (length bs) else if t_debug a then Nat.min (3 - i) (length bs) else length bs in
  (t_dry a = true -> i = 0%nat) ->
  exists steps, train_loop fam h a bw i T bs = Ok (fold_left (adam_full fam h) steps T) /\ reached (fold_left (adam_full fam h) steps T) /\ follows fam h (t_lr a) bw T (firstn k bs) steps.
Proof.
  induction bs as [|b bs IH]; intros i T HT HO HG k Hi.
  - exists []. cbn [train_loop fold_left]. split; [auto|]. split; [auto|]. rewrite firstn_nil. exact I.
  - inversion HO as [|? ? H1 H2]; subst. destruct (step_reached T b HT H1) as [ES RS]. set (s := mkFs _ _ _ _) in *. set (T' := adam_full fam h T s) in *. cbn [train_loop].
    assert (NZ: negb (t_log a =? 0)%nat = true) by (destruct (Nat.eqb_spec (t_log a) 0); [lia|reflexivity]).
    destruct (t_dry a) eqn:DR.
    + assert (i = 0%nat) by auto. subst i. replace (t_debug a && (2 <? 0)%nat) with false by (rewrite andb_comm; reflexivity). rewrite ES. cbn [bind]. rewrite NZ. cbn [guard bind]. rewrite Nat.mod_0_l by lia. cbn [Nat.eqb andb].
      exists [s]. cbn [fold_left]. split; [reflexivity|]. split; [exact RS|]. unfold k. rewrite Nat.mod_0_l by lia. cbn [Nat.eqb length Nat.min firstn follows]. repeat split.
    + destruct (t_debug a && (2 <? i)%nat) eqn:DB.
      * apply andb_prop in DB as [D1 D2]. apply Nat.ltb_lt in D2. exists []. cbn [fold_left]. split; [auto|]. split; [auto|]. unfold k. rewrite D1. replace (3 - i)%nat with 0%nat by lia. cbn [Nat.min firstn follows]. exact I.
      * rewrite ES. cbn [bind]. rewrite NZ. cbn [guard bind]. rewrite andb_false_r. destruct (IH (S i) T' RS H2 HG ltac:(discriminate)) as (steps & E1 & E2 & E3).
        exists (s :: steps). cbn [fold_left]. fold T'. split; [exact E1|]. split; [exact E2|]. unfold k. destruct (t_debug a) eqn:D1.
        -- cbn [andb] in DB. apply Nat.ltb_ge in DB. replace (3 - i)%nat with (S (3 - S i)) by lia. cbn [length Nat.min firstn follows]. split; [reflexivity|]. exact E3.
        -- cbn [length firstn follows]. split; [reflexivity|]. exact E3.
Qed.
Lemma epochs_used eps : forall T, reached T -> Forall (epoch_ok E a) eps -> (0 < t_log a)%nat ->
  exists steps, train_epochs fam h a bw T eps = Ok (fold_left (adam_full fam h) steps T) /\ reached (fold_left (adam_full fam h) steps T) /\
    follows fam h (t_lr a) bw T (flat_map (fun bs => firstn (used a (length bs)) bs) eps) steps.
Proof.
  induction eps as [|bs eps IH]; intros T HT HO HG.
  - exists []. cbn. auto.
  - inversion HO as [|? ? H1 H2]; subst. destruct (loop_used bs 0 T HT H1 HG ltac:(auto)) as (s1 & E1 & R1 & F1). destruct (IH _ R1 H2 HG) as (s2 & E2 & R2 & F2).
    exists (s1 ++ s2). cbn [train_epochs flat_map]. rewrite E1. cbn [bind]. rewrite E2, fold_left_app. split; [reflexivity|]. split; [exact R2|]. apply follows_app; auto.
    unfold used. rewrite Nat.mod_0_l in F1 by lia. cbn [Nat.eqb] in F1. exact F1.
Qed.
End Run.

(** Training never fails, is a run of the optimizer with a constant learning rate over the batches that the flags leave, and ends with a network that the
    constructor could have built, whose evaluation on any data set reports a number. *)
Theorem C84_training : forall V (fam : family V) smooth score h g o (E : einet V) th a backward epochs, scored fam smooth score -> hyper_ok h -> accepted g o E -> leafE E = fam_leaf fam th ->
  0 <= t_lr a -> (0 < t_log a)%nat -> Forall (epoch_ok E a) epochs ->
  exists steps, let T := full_run fam h E th steps in let E' := tr_net (fu_tr T) in
    train_epochs fam h a backward (full_start E th) epochs = Ok T /\
    follows fam h (t_lr a) backward (full_start E th) (flat_map (fun batches => firstn (used a (length batches)) batches) epochs) steps /\
    leafE E' = fam_leaf fam (fu_th T) /\ (exists o', accepted g o' E') /\
    forall N x labels classification bs order, batch E N x -> (0 < N)%nat -> (0 < bs)%nat -> visits N order -> (N mod bs <> 1 mod bs)%nat ->
      exists batches acc, loader bs order x labels = Ok batches /\ test classification E' N batches = Ok (Fin (- mean N (fun n => ln (marg E' x n))), acc).
Proof.
  intros V fam smooth score h g o E th a bw eps HS Hh A HL Hlr HG HO.
  assert (R0: reached fam h E th (full_start E th)) by (exists []; split; [reflexivity|constructor]).
  destruct (epochs_used fam smooth score h g o E th a bw HS Hh A HL Hlr eps (full_start E th) R0 HO HG) as (steps & E1 & R1 & F1). exists steps. cbn zeta. change (fold_left (adam_full fam h) steps (full_start E th)) with (full_run fam h E th steps) in *.
  split; [exact E1|]. split; [exact F1|]. destruct (reached_net fam smooth score h g o E th HS Hh A HL _ R1) as ((o' & A') & HBT & _).
  assert (HF: Forall (fun s => 0 <= fs_lr s) steps) by (eapply Forall_impl; [|eapply follows_rates; exact F1]; cbn beta; intros s ->; exact Hlr).
  split; [apply (C83_run V fam smooth score h g o E th steps HS Hh A HL HF)|]. split; [eauto|].
  intros N x labels cl bs order HB HN Hb HV HM. destruct (C84_report V g o' _ N x labels cl bs order A' (HBT N x HB) HN Hb HV HM) as (batches & ps & acc & L & _ & TE & _). exists batches, acc. auto.
Qed.
Print Assumptions C84_training.
Lemma NoDup_front {A} (l1 l2 : list A) : NoDup (l1 ++ l2) -> NoDup l1.
Proof.
  induction l1 as [|b l1 IH]; intros H; [constructor|]. cbn [app] in H. inversion H; subst. constructor; auto. intros Q. match goal with N : ~ In _ _ |- _ => apply N end. apply in_or_app. auto.
Qed.
(** An epoch without flags uses every row once, with --debug at most three batches, with --dry-run the first batch. *)
Theorem C84_rows : forall a bs N order, (0 < bs)%nat -> visits N order -> let rows := concat (firstn (used a (length (chunks bs order))) (chunks bs order)) in
  NoDup rows /\ (forall n, In n rows -> (n < N)%nat) /\
  (t_debug a = false -> t_dry a = false -> Permutation rows (seq 0 N)) /\ (t_debug a = true -> t_dry a = false -> length rows = Nat.min (3 * bs) N) /\ (t_dry a = true -> length rows = Nat.min bs N).
Proof.
  intros a bs N order Hb HV rows. pose proof (visits_length N order HV) as LO.
  assert (FC: forall k l, concat (firstn k (chunks bs l)) = firstn (k * bs) (l : list nat)).
  { unfold chunks. intros k l. assert (L: (length l <= length l)%nat) by lia. revert L. generalize (length l) at 2 3. intros fuel. revert k l. induction fuel as [|fuel IH]; intros k l L.
    - destruct l; [|cbn in L; lia]. cbn [chunks_of]. rewrite !firstn_nil. reflexivity.
    - destruct l as [|b l]; [cbn [chunks_of]; rewrite !firstn_nil; reflexivity|]. change (chunks_of (S fuel) bs (b :: l)) with (firstn bs (b :: l) :: chunks_of fuel bs (skipn bs (b :: l))). destruct k as [|k]; [reflexivity|].
      cbn [firstn]. cbn [concat]. rewrite IH by (rewrite skipn_length; cbn [length] in *; lia). cbn [Nat.mul].
      rewrite <- (firstn_skipn bs (b :: l)) at 3. rewrite firstn_app. f_equal.
      + rewrite firstn_firstn. f_equal. lia.
      + rewrite firstn_length. destruct (Nat.le_gt_cases bs (length (b :: l))) as [Q|Q]; [f_equal; lia|]. rewrite skipn_all2 by lia. rewrite !firstn_nil. reflexivity. }
  assert (LC: forall k, (k <= length (chunks bs order) \/ N <= k * bs)%nat -> length (concat (firstn k (chunks bs order))) = Nat.min (k * bs) N) by (intros k _; rewrite FC, firstn_length, LO; reflexivity).
  assert (ND: NoDup order) by (eapply Permutation_NoDup; [apply Permutation_sym; exact HV|apply seq_NoDup]).
  assert (CL: (N <= length (chunks bs order) * bs)%nat).
  { pose proof (FC (length (chunks bs order)) order) as Q. rewrite firstn_all, (chunks_concat bs order Hb) in Q. apply (f_equal (@length nat)) in Q. rewrite firstn_length, LO in Q. lia. }
  split; [|split; [|split; [|split]]].
  - unfold rows. rewrite FC. rewrite <- (firstn_skipn (used a (length (chunks bs order)) * bs) order) in ND. apply NoDup_front in ND. exact ND.
  - intros n Hn. apply (visits_in N order n HV). unfold rows in Hn. rewrite FC in Hn. rewrite <- (firstn_skipn (used a (length (chunks bs order)) * bs) order). apply in_or_app. auto.
  - intros D1 D2. unfold rows, used. rewrite D1, D2, firstn_all, (chunks_concat bs order Hb). exact HV.
  - intros D1 D2. unfold rows, used. rewrite D1, D2. rewrite LC by lia. destruct (Nat.min_spec 3 (length (chunks bs order))) as [[? ->]|[? ->]]; nia.
  - intros D2. unfold rows, used. rewrite D2, LC by lia. destruct (Nat.min_spec 1 (length (chunks bs order))) as [[? ->]|[? ->]]; nia.
Qed.
Print Assumptions C84_rows.
(** A log interval of 0 ends training with ZeroDivisionError after the first step. *)
Theorem C84_log_refuted : forall V (fam : family V) smooth score h g o (E : einet V) th a backward b batches epochs, scored fam smooth score -> hyper_ok h -> accepted g o E -> leafE E = fam_leaf fam th ->
  0 <= t_lr a -> t_log a = 0%nat -> epoch_ok E a (b :: batches) -> train_epochs fam h a backward (full_start E th) ((b :: batches) :: epochs) = Err ZeroDivErr.
Proof.
  intros V fam smooth score h g o E th a bw b bs eps HS Hh A HL Hlr HG HO. inversion HO as [|? ? H1 H2]; subst.
  assert (R0: reached fam h E th (full_start E th)) by (exists []; split; [reflexivity|constructor]).
  destruct (step_reached fam smooth score h g o E th a bw HS Hh A HL Hlr _ b R0 H1) as [ES _]. cbn [train_epochs train_loop]. replace (t_debug a && (2 <? 0)%nat) with false by (rewrite andb_comm; reflexivity). rewrite ES. cbn [bind]. rewrite HG. reflexivity.
Qed.
Print Assumptions C84_log_refuted.

(** ** Concrete cases: the network and the two rows of C83 (a row of zeros and a row of ones) *)
Lemma le_x_batch L a : batch (le_E L a) 2 le_x.
Proof.
  apply (two_rows_batch (le_E L a) 1 2 (fun n _ _ => Some (n mod 2)%nat)); auto. intros n c f u H. assert (u = n mod 2)%nat as -> by congruence. apply Nat.mod_upper_bound. lia.
Qed.
Example C84_report_ex : visits 2 [1; 0]%nat /\ (2 mod 2 <> 1 mod 2)%nat /\
  exists batches ps, loader 2 [1; 0]%nat le_x le_labels = Ok batches /\ length batches = 1%nat /\
    test true (le_E 2 0) 2 batches = Ok (Fin (- mean 2 (fun n => ln (marg (le_E 2 0) le_x n))), Some (Fin (100 * share_correct 2 ps le_labels))) /\ share_correct 2 ps le_labels = 1.
Proof.
  assert (HV: visits 2 [1; 0]%nat) by apply perm_swap. assert (HM: (2 mod 2 <> 1 mod 2)%nat) by (cbn; lia). split; [exact HV|]. split; [exact HM|].
  destruct (C84_report nat (le_g 2) (le_o 2 0) (le_E 2 0) 2 le_x le_labels true 2 [1; 0]%nat (le_accepted 2 0 ltac:(lia)) (le_x_batch 2 0) ltac:(lia) ltac:(lia) HV HM) as (bl & ps & acc & E1 & P & E2 & ->).
  exists bl, ps. split; [exact E1|]. split; [unfold loader in E1; cbn [guard negb Nat.eqb bind] in E1; injection E1 as E1; rewrite <- E1; reflexivity|]. split; [exact E2|]. unfold share_correct, mean. rewrite (rsum_ext 2 _ (fun _ => 1)); [rewrite rsum_const; cbn [INR]; field|].
  intros n Hn. destruct (P n Hn) as [HP _]. cbn [le_E e_K] in HP. replace (ps n) with 0%nat by lia. reflexivity.
Qed.
Example C84_single_ex : exists batches, loader 1 [0; 1]%nat le_x le_labels = Ok batches /\ test false (le_E 2 0) 2 batches = Err TypeErr.
Proof. apply (C84_single_refuted nat (le_g 2) (le_o 2 0) (le_E 2 0) 2 le_x le_labels false 1 [0; 1]%nat (le_accepted 2 0 ltac:(lia)) (le_x_batch 2 0)); try lia; [apply Permutation_refl|reflexivity]. Qed.
(** The two orders of two rows, with probability one half each *)
Example C84_unbiased_ex : exists L : list nat -> R,
  (forall order, In order [[0; 1]; [1; 0]]%nat -> exists batches b, loader 1 order le_x le_labels = Ok batches /\ nth_error batches 0 = Some b /\ loss_is (train_loss (le_E 2 0) false (fst b) (snd b)) (L order)) /\
  1 / 2 * L [0; 1]%nat + 1 / 2 * L [1; 0]%nat = - mean 2 (fun n => ln (marg (le_E 2 0) le_x n)).
Proof.
  destruct (C84_unbiased nat (le_g 2) (le_o 2 0) (le_E 2 0) 2 le_x le_labels 1 [[0; 1]; [1; 0]]%nat (fun _ => 1 / 2) 0 (le_accepted 2 0 ltac:(lia)) (le_x_batch 2 0)) as (L & H & S); try lia.
  - intros order [<-|[<-|[]]]; [apply Permutation_refl|apply perm_swap].
  - intros i n Hi Hn. destruct i as [|[|i]]; [| |lia]; (destruct n as [|[|n]]; [| |lia]); cbn [lsum nth Nat.eqb INR]; field.
  - exists L. split; [exact H|]. rewrite <- S. cbn [lsum]. ring.
Qed.
(** Two epochs of two batches: four steps *)
Example C84_training_ex : exists steps, let a := mkTA false false 100 false (1 / 10) in let batches := [(le_x, le_labels); (st_x, le_labels)] in
  train_epochs (bernoulli_family 2 1 2 1) adam_defaults a (fun _ _ => mkGr (fun _ _ => 1) (fun _ => 0) (fun _ _ => 1)) (full_start (le_E 2 0) (fun _ _ => 0)) [batches; batches]
    = Ok (full_run (bernoulli_family 2 1 2 1) adam_defaults (le_E 2 0) (fun _ _ => 0) steps) /\ length steps = 4%nat.
Proof.
  destruct (C84_training nat (bernoulli_family 2 1 2 1) off_corner bernoulli_score adam_defaults (le_g 2) (le_o 2 0) (le_E 2 0) (fun _ _ => 0) (mkTA false false 100 false (1 / 10)) (fun _ _ => mkGr (fun _ _ => 1) (fun _ => 0) (fun _ _ => 1))
    [[(le_x, le_labels); (st_x, le_labels)]; [(le_x, le_labels); (st_x, le_labels)]] (proj1 (C83_scores 2 1 2 1)) (proj1 C81_defaults) (le_accepted 2 0 ltac:(lia)) eq_refl) as (steps & E1 & F & _).
  - cbn [t_lr]. lra.
  - cbn [t_log]. lia.
  - assert (EO: epoch_ok (le_E 2 0) (mkTA false false 100 false (1 / 10)) [(le_x, le_labels); (st_x, le_labels)]).
    { constructor; [|constructor; [|constructor]]; exists 2%nat; (split; [lia|]); (split; [|cbn; discriminate]); [apply le_x_batch|apply le_batch]. }
    constructor; [exact EO|constructor; [exact EO|constructor]].
  - exists steps. split; [exact E1|]. apply follows_length in F. exact F.
Qed.
