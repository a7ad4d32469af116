(** C82: a whole network in training mode, with dropout. *)
From Coq Require Import List Arith Lia Bool ZArith Reals Lra Permutation.
Import ListNotations.
From Verif Require Import Base RSum Num Tensor Prob Layers Circuit Net RefFwd RefLayer Leaf RefLeaf Einet RefNet RefEinet RefEinetS Build RefBuild Spec
  RefSpec RefPack RefSample Dropout RefDropout PropDropout DropNet RefDropNet Train RefTrain PropTrain PropForward Ex.
Local Open Scope R_scope.

(** * The layers of an accepted network *)
(** The intermediate layers a configuration asks for. *)
Definition kind (t : ltype) (l : layer) : Prop :=
  match t with
  | TEinsum => exists L, l = LEin L
  | TLinsum => exists L, l = LLin L
  | TLinsum2 => exists L, l = LLin2 L /\ (0 < sout L)%nat
  | TOtherLayer => False
  end.
Lemma new_intermediate_kind t lg a b c d drop l : new_intermediate t lg a b c d drop = Ok l -> (1 <= c)%nat -> kind t l.
Proof.
  destruct t; cbn [new_intermediate kind]; intros H Hc; try discriminate; apply bind_ok in H as (L & HL & H); injection H as <-; eauto.
  apply new_layer_inv in HL. subst L. eexists. split; [reflexivity|]. exact Hc.
Qed.
Lemma top_kind {V} g (o : oracle V) : sizes_ok g -> forall xs ls, mapM (top_layer g o) xs = Ok ls -> forall l, In l ls -> kind (g_layer g) l.
Proof.
  intros Hs. induction xs as [|x xs IH]; cbn [mapM]; intros ls H l Hl.
  - injection H as <-. destruct Hl.
  - apply bind_ok in H as (y & Hy & H). apply bind_ok in H as (ys & Hys & H). injection H as <-. destruct Hl as [<-|Hl]; [|eauto].
    unfold top_layer in Hy. apply new_intermediate_kind in Hy; auto. pose proof (so_S g Hs). pose proof (so_K g Hs). destruct (x =? 1)%nat; lia.
Qed.
Lemma bottom_kind {V} g (o : oracle V) : sizes_ok g -> forall k i nfeat ls, bottom_layers g o k i nfeat = Ok ls -> length ls = k /\ forall l, In l ls -> kind (g_layer g) l.
Proof.
  intros Hs. induction k as [|k IH]; intros i nfeat ls H; cbn [bottom_layers] in H.
  - injection H as <-. split; [reflexivity|intros l []].
  - apply bind_ok in H as (l & Hl & H). apply bind_ok in H as (ls' & Hls & H). injection H as <-.
    destruct (IH _ _ _ Hls) as [Len Hk]. split; [simpl; lia|]. intros l' [<-|H]; auto.
    apply new_intermediate_kind in Hl; auto. pose proof (so_S g Hs). lia.
Qed.
Lemma mapM_length {A B} (f : A -> res B) xs : forall ys, mapM f xs = Ok ys -> length ys = length xs.
Proof.
  induction xs as [|x xs IH]; cbn [mapM]; intros ys H; [injection H as <-; reflexivity|].
  apply bind_ok in H as (y & _ & H). apply bind_ok in H as (ys' & H' & H). injection H as <-. simpl. f_equal. auto.
Qed.

Inductive built {V} (g : config) (E : einet V) : Prop :=
| built_flat L : g_struct g = STopDown -> nval (g_depth g) = 0%nat -> e_perm E = None -> e_layers E = [LSum L] -> built g E
| built_top l ls : g_struct g = STopDown -> (0 < nval (g_depth g))%nat -> e_perm E = None -> e_layers E = ls ++ [l] ->
    (forall l', In l' (ls ++ [l]) -> kind (g_layer g) l') -> built g E
| built_bottom l ls L D pp : g_struct g = SBottomUp -> (0 < nval (g_depth g))%nat -> g_layer g = TLinsum -> e_perm E = Some pp ->
    e_layers E = l :: ls ++ [LSum L; LRoot D] -> (forall l', In l' (l :: ls) -> kind TLinsum l') -> built g E.
Lemma accepted_built V g o (E : einet V) : accepted g o E -> built g E.
Proof.
  intros [Hc Ho H]. unfold build in H. apply bind_ok in H as ([] & Ha & H).
  destruct (assert_valid_inv g Ha Hc) as (Hs & Hp & Hb). destruct (g_struct g) eqn:Est; [| |discriminate].
  - unfold build_top_down in H. apply bind_ok in H as (ls & Hls & H). apply bind_ok in H as (ls1 & Hls1 & H).
    apply bind_ok in H as (l0 & Hl0 & H). apply bind_ok in H as (lf & _ & H). apply bind_ok in H as (m & _ & H). apply bind_ok in H as (rt & _ & H).
    injection H as <-. destruct (Z.eqb_spec (zval (g_depth g)) 0) as [Z0|Z0].
    + assert (D0: nval (g_depth g) = 0%nat) by (unfold nval; lia). rewrite D0 in Hls. cbn [seq mapM] in Hls. injection Hls as <-.
      apply bind_ok in Hls1 as (L & _ & Hls1). injection Hls1 as <-. apply (built_flat g _ L); auto.
    + injection Hls1 as <-. pose proof (mapM_length _ _ _ Hls) as Len. rewrite seq_length in Len.
      destruct ls as [|l ls]; [discriminate Hl0|]. apply (built_top g _ l (rev ls)); auto; [simpl in Len; lia|].
      intros l' Hl'. apply (top_kind g o Hs _ _ Hls). apply in_app_or in Hl' as [Hl'|[<-|[]]]; [right; apply in_rev; auto|left; auto].
  - specialize (Hb eq_refl). unfold build_bottom_up in H. apply bind_ok in H as (ls & Hls & H). apply bind_ok in H as (u & _ & H).
    apply bind_ok in H as (u' & Hg & H). apply bind_ok in H as (l & Hl & H). apply bind_ok in H as (rs & _ & H). apply bind_ok in H as (lf & _ & H).
    apply bind_ok in H as (m & _ & H). apply bind_ok in H as (rt & _ & H). injection H as <-.
    destruct (bottom_kind g o Hs _ _ _ _ Hls) as [Len Hk].
    assert (D1: (0 < nval (g_depth g))%nat) by (destruct (Nat.ltb_spec 0 (nval (g_depth g))); [auto|discriminate]).
    destruct ls as [|l1 ls]; [simpl in Len; lia|]. rewrite Hb in Hk. eapply (built_bottom g _ l1 ls); [exact Est|exact D1|exact Hb|reflexivity|reflexivity|exact Hk].
Qed.
Lemma accepted_kind V g o (E : einet V) : accepted g o E -> no_einsum E \/ all_einsum E.
Proof.
  intros A. destruct (accepted_built V g o E A) as [L _ _ _ El|l ls _ _ _ El Hk|l ls L D pp _ _ _ _ El Hk]; unfold no_einsum, all_einsum; rewrite El.
  - left. intros l [<-|[]] L'. discriminate.
  - destruct (g_layer g) eqn:Eg; cbn [kind] in Hk.
    + left. intros l' Hl L'. destruct (Hk l' Hl) as (L & ->). discriminate.
    + left. intros l' Hl L'. destruct (Hk l' Hl) as (L & -> & _). discriminate.
    + right. exact Hk.
    + left. intros l' Hl L'. destruct (Hk l' Hl).
  - left. intros l' Hl L'. cbn [kind] in Hk. assert (C: In l' (l :: ls) \/ In l' [LSum L; LRoot D]).
    { destruct Hl as [<-|Hl]; [left; left; auto|]. apply in_app_or in Hl as [Hl|Hl]; [left; right; auto|right; auto]. }
    destruct C as [C|[<-|[<-|[]]]]; [|discriminate|discriminate]. destruct (Hk l' C) as (L1 & ->). discriminate.
Qed.

(** * Vocabulary *)
(** Configurations whose layers keep a child of every node whenever they return. *)
Definition keeps_children (g : config) : Prop :=
  (0 < nval (g_depth g))%nat /\ g_layer g <> TLinsum2 \/ nval (g_depth g) = 0%nat /\ nval (g_R g) = 1%nat.
(** No tensor that is drawn first drops anything. *)
Definition drops_nothing (coins : nat -> nat -> list nat -> bool) : Prop := forall i idx, coins i 0%nat idx = false.

Lemma accepted_steady V g o (E : einet V) p : accepted g o E -> keeps_children g -> forall l, In l (e_layers E) -> steady p E (e_R E) l.
Proof.
  intros A Hk l Hl. assert (ER: e_R E = nval (g_R g)) by (destruct A as [Hc Ho Hb]; apply (build_inv g o E Hc Ho Hb)).
  destruct (accepted_built V g o E A) as [L _ D0 _ El|l0 ls _ D1 _ El Hki|l0 ls L D pp _ _ _ Ep El Hki]; rewrite El in Hl.
  - destruct Hl as [<-|[]]. cbn [steady]. right. destruct Hk as [[H _]|[_ H]]; [lia|congruence].
  - specialize (Hki l Hl). destruct Hk as [[_ H]|[H _]]; [|lia]. destruct (g_layer g); cbn [kind] in Hki; [destruct Hki as (L & ->); exact I|congruence|destruct Hki as (L & ->); exact I|destruct Hki].
  - assert (C: In l (l0 :: ls) \/ In l [LSum L; LRoot D]).
    { destruct Hl as [<-|Hl]; [left; left; auto|]. apply in_app_or in Hl as [Hl|Hl]; [left; right; auto|right; auto]. }
    destruct C as [C|[<-|[<-|[]]]]; [|cbn [steady layer_rate]; rewrite Ep; left; lra|exact I]. destruct (Hki l C) as (L1 & ->). exact I.
Qed.

(** * Switched off *)
(** In evaluation mode, or with a rate of zero, the training pass is the ordinary forward pass, whatever network it is. *)
Theorem C82_off : forall V (E : einet V) coins p training fuel x ms, training = false \/ p <= 0 ->
  forward_train coins p training fuel E x ms = Some (forward E x ms).
Proof.
  intros V E coins p training fuel x ms H. apply forward_train_plain.
  - intros y. apply train_layers_off; auto.
  - right. apply (switched_off p training H). auto.
Qed.
Print Assumptions C82_off.

(** A network of einsum layers with a single repetition ignores its dropout rate. *)
Theorem C82_einsum_ignores_dropout : forall V g o (E : einet V) coins p training fuel x ms, accepted g o E ->
  g_layer g = TEinsum -> (0 < nval (g_depth g))%nat -> nval (g_R g) = 1%nat ->
  forward_train coins p training fuel E x ms = Some (forward E x ms).
Proof.
  intros V g o E coins p training fuel x ms A Ht Hd HR. assert (ER: e_R E = nval (g_R g)) by (destruct A as [Hc Ho Hb]; apply (build_inv g o E Hc Ho Hb)).
  apply forward_train_plain; [|left; lia]. intros y. apply train_layers_einsum.
  destruct (accepted_built V g o E A) as [L _ D0 _ El|l0 ls _ D1 _ El Hki|l0 ls L D pp _ _ Hb Ep El Hki]; [lia| |congruence].
  rewrite El. intros l Hl. specialize (Hki l Hl). rewrite Ht in Hki. exact Hki.
Qed.
Print Assumptions C82_einsum_ignores_dropout.

(** * What a pass returns *)
(** Whatever is dropped, an output is minus infinity or at most the log-likelihood of evaluation mode; it is never NaN or too large. *)
Theorem C82_below : forall V g o (E : einet V) coins p training fuel N x ms y, accepted g o E -> evidence E N x ms ->
  forward_train coins p training fuel E x ms = Some (Ok y) ->
  shape y = [N; e_K E] /\ forall n k, (n < N)%nat -> (k < e_K E)%nat ->
    0 <= pval (get y [n; k]) <= lik E x ms n k /\ (get y [n; k] = NInf \/ exists a, get y [n; k] = Fin a).
Proof.
  intros V g o E coins p training fuel N x ms y A He H. pose proof (accepted_ok g o E A) as HE. apply evidence_input in He.
  destruct (forward_train_below coins p training fuel E HE (accepted_kind V g o E A) N x ms y He H) as [Sy Gy]. split; [exact Sy|].
  intros n k Hn Hk. destruct (Gy n k Hn Hk) as (a & -> & Ha & _). rewrite (lik_eval E HE N) by auto. unfold leafE in *.
  destruct (Req_EM_T a 0) as [->|Z]; [rewrite nlog_zero; cbn [pval]; split; [lra|auto]|]. rewrite nlog_pos by lra. cbn [pval]. rewrite exp_ln by lra.
  split; [lra|right; eauto].
Qed.
Print Assumptions C82_below.

(** With einsum or linsum layers, or one repetition and no layers at all, every output is a number. *)
Theorem C82_finite : forall V g o (E : einet V) coins p training fuel N x ms y, accepted g o E -> evidence E N x ms -> keeps_children g ->
  forward_train coins p training fuel E x ms = Some (Ok y) ->
  forall n k, (n < N)%nat -> (k < e_K E)%nat -> exists a, get y [n; k] = Fin a /\ a <= ln (lik E x ms n k).
Proof.
  intros V g o E coins p training fuel N x ms y A He Hk H n k Hn Hkk. pose proof (accepted_ok g o E A) as HE. apply evidence_input in He.
  destruct (forward_train_below coins p training fuel E HE (accepted_kind V g o E A) N x ms y He H) as [Sy Gy].
  destruct (Gy n k Hn Hkk) as (a & -> & Ha & Pa). rewrite (lik_eval E HE N) by auto.
  specialize (Pa (accepted_steady V g o E p A Hk)). exists (ln a). split; [apply nlog_pos; auto|]. apply ln_mono; [auto|apply Ha].
Qed.
Print Assumptions C82_finite.

(** If no first draw drops anything, the pass returns and the outputs are those of evaluation mode. *)
Theorem C82_nothing_dropped : forall V g o (E : einet V) coins p training fuel N x ms, accepted g o E -> evidence E N x ms -> drops_nothing coins ->
  exists y, forward_train coins p training fuel E x ms = Some (Ok y) /\ shape y = [N; e_K E] /\
    forall n k, (n < N)%nat -> (k < e_K E)%nat -> get y [n; k] = Fin (ln (lik E x ms n k)).
Proof.
  intros V g o E coins p training fuel N x ms A He Hc. pose proof (accepted_ok g o E A) as HE. apply evidence_input in He.
  destruct (forward_train_stage coins p training fuel E HE N x ms He) as (x0 & x1 & -> & Ep & z & Hz & R1).
  set (vn := fun n => leafval (fnet E) (lval (pdf (leaf_of (e_leaf E))) (seen z ms n))) in R1.
  assert (T: exists y, train_layers coins p training fuel E 0 (e_layers E) x1 = Some (Ok y) /\
    vrep y N 1 (e_K E) (e_R E) (fun n => evals (layers_us 1 (e_L E) (e_layers E)) (vn n))).
  { destruct (accepted_kind V g o E A) as [Hk|Hk].
    - apply (train_layers_kept coins p training fuel E (e_R E) (e_layers E) (leaf_out E) (e_L E) 1 (e_K E) 0 N x1 vn (eo_layers E HE) (eo_R E HE) Hk (trep_vrep _ _ _ _ _ _ R1)).
      + intros L Hl. destruct (accepted_built V g o E A) as [L1 _ D0 _ El|l0 ls _ D1 _ El Hki|l0 ls L1 D pp _ _ _ _ El Hki]; rewrite El in Hl.
        * destruct Hl as [Hl|[]]. discriminate.
        * specialize (Hki _ Hl). destruct (g_layer g); cbn [kind] in Hki; [destruct Hki; discriminate| |destruct Hki; discriminate|destruct Hki].
          destruct Hki as (L1 & E1 & P). injection E1 as ->. exact P.
        * destruct Hl as [Hl|Hl]; [specialize (Hki l0 (or_introl eq_refl)); rewrite Hl in Hki; destruct Hki; discriminate|].
          apply in_app_or in Hl as [Hl|[Hl|[Hl|[]]]]; try discriminate. destruct (Hki _ (or_intror Hl)); discriminate.
      + intros; apply Hc.
    - rewrite train_layers_einsum by auto. destruct (forward_layers_rep _ _ _ _ _ _ N x1 vn (eo_layers E HE) R1) as (y & cs & Ey & Hy & _).
      rewrite Ey. cbn [bind fst]. exists y. split; [reflexivity|]. apply trep_vrep. exact Hy. }
  destruct T as (t & Et & Rt).
  destruct (train_top coins p training fuel E HE N t _ Rt (kept_draws _ 3 [N; 1; e_K E; e_R E]%nat (eo_R E HE) (fun idx => Hc _ idx)) x0 x1 Ep Et)
    as (y & mask & Ey & Sy & Dm & _ & _ & Gy).
  exists y. split; [exact Ey|]. split; [exact Sy|]. intros n k Hn Hk. rewrite Gy by auto. rewrite (lik_eval E HE N) by auto.
  rewrite (rsum_ext _ _ (fun r => emix E 1 k r * evals (layers_us 1 (e_L E) (e_layers E)) (vn n) 0%nat k r)).
  2:{ intros r _. replace (keepw mask [n; 0%nat; k; r]) with 1; [ring|]. destruct Dm as [->| ->]; [cbn [keepw get]; rewrite Hc|]; reflexivity. }
  change (rsum (e_R E) (fun r => emix E 1 k r * evals (layers_us 1 (e_L E) (e_layers E)) (vn n) 0%nat k r))
    with (neteval (fnet E) (lval (pdf (leaf_of (e_leaf E))) (seen z ms n)) k).
  rewrite (neteval_ext (fnet E) _ (lval (pdf (leaf_of (e_leaf E))) (row x ms n))) by (auto; apply fnet_wf; auto). apply nlog_pos. apply neteval_row_pos; auto.
Qed.
Print Assumptions C82_nothing_dropped.

(** * Failures *)
(** A linsum network with several leaves or repetitions can raise: the loop that redraws the mask indexes wrongly. *)
Theorem C82_linsum_raises : forall V g o (E : einet V) p fuel N x ms, accepted g o E -> evidence E N x ms ->
  g_layer g = TLinsum -> (0 < nval (g_depth g))%nat -> e_L E <> 1%nat \/ e_R E <> 1%nat -> (0 < N)%nat -> 0 < p ->
  exists coins, forward_train coins p true (S fuel) E x ms = Some (Err IndexErr).
Proof.
  intros V g o E p fuel N x ms A He Ht Hd HLR HN Hp. pose proof (accepted_ok g o E A) as HE. apply evidence_input in He.
  exists (fun _ _ _ => true). destruct (forward_train_stage (fun _ _ _ => true) p true (S fuel) E HE N x ms He) as (x0 & x1 & -> & Ep & z & Hz & R1).
  unfold train_upper. fold (permuted E x0). rewrite Ep. cbn [obind].
  assert (F: exists L ls, e_layers E = LLin L :: ls).
  { destruct (accepted_built V g o E A) as [L1 _ D0 _ El|l0 ls _ D1 _ El Hki|l0 ls L1 D pp _ _ _ _ El Hki]; [lia| |].
    - rewrite Ht in Hki. destruct ls as [|l1 ls]; cbn [app] in *.
      + destruct (Hki l0 (or_introl eq_refl)) as (L & ->). eauto.
      + destruct (Hki l1 (or_introl eq_refl)) as (L & ->). eauto.
    - destruct (Hki l0 (or_introl eq_refl)) as (L & ->). eauto. }
  destruct F as (L & ls & El). pose proof (eo_layers E HE) as HL. rewrite El in HL |- *. cbn [layers_ok layer_ok] in HL.
  destruct HL as [[Hok (H1 & H2 & H3)] _]. cbn [train_layers layer_train].
  assert (Hv: values x1 N (nf L) (sin L) (nrep L)).
  { rewrite H1, H2, H3. destruct R1 as [S1 G1]. split; [exact S1|]. intros n d s r Hn Hd' Hs Hr. destruct (G1 n d s r Hn Hd' Hs Hr) as [_ ->]. eexists. reflexivity. }
  assert (D2: (0 < (nf L + 1) / 2)%nat) by (destruct Hok as (_ & Hn & _); apply Nat.div_str_pos; lia).
  assert (R0: (0 < nrep L)%nat) by (rewrite H3; apply (eo_R E HE)).
  rewrite (C28_linsum_refuted _ _ fuel L x1 N 0%nat 0%nat 0%nat Hv); auto. rewrite H2, H3. exact HLR.
Qed.
Print Assumptions C82_linsum_raises.

(** With linsum2 layers an output can be minus infinity although the data point has a positive likelihood. *)
Theorem C82_linsum2_refuted : forall V g o (E : einet V) p fuel N x ms, accepted g o E -> evidence E N x ms ->
  g_layer g = TLinsum2 -> (0 < nval (g_depth g))%nat -> (1 < e_K E)%nat -> (0 < N)%nat -> 0 < p ->
  exists coins y, forward_train coins p true fuel E x ms = Some (Ok y) /\ get y [0; 0]%nat = NInf /\ 0 < lik E x ms 0 0.
Proof.
  intros V g o E p fuel N x ms A He Ht Hd HK HN Hp. pose proof (accepted_ok g o E A) as HE. apply evidence_input in He.
  destruct (accepted_built V g o E A) as [L1 _ D0 _ El|l0 ls _ D1 _ El Hki|l0 ls L1 D pp _ _ Hb _ El Hki]; [lia| |congruence].
  rewrite Ht in Hki. cbn [kind] in Hki. destruct (Hki l0) as (L & E0 & _); [apply in_or_app; right; left; auto|]. subst l0.
  set (coins := fun (i _ : nat) (idx : list nat) => (i =? length ls)%nat && (nth 2 idx 0 =? 0)%nat).
  destruct (forward_train_stage coins p true fuel E HE N x ms He) as (x0 & x1 & Ef & Ep & z & Hz & R1).
  set (vn := fun n => leafval (fnet E) (lval (pdf (leaf_of (e_leaf E))) (seen z ms n))) in R1.
  exists coins. rewrite Ef. pose proof (eo_layers E HE) as HL. rewrite El in HL. apply layers_ok_split in HL as (D2 & S2 & HL1 & HL2).
  destruct (train_layers_kept coins p true fuel E (e_R E) ls _ _ _ _ 0 N x1 vn HL1 (eo_R E HE)) as (t & Et & Rt).
  { intros l Hl L'. destruct (Hki l) as (L2 & -> & _); [apply in_or_app; auto|discriminate]. }
  { apply trep_vrep. exact R1. }
  { intros L' Hl. destruct (Hki (LLin2 L')) as (L2 & E2 & P); [apply in_or_app; auto|]. injection E2 as <-. exact P. }
  { intros j idx Hj. unfold coins. destruct (Nat.eqb_spec j (length ls)); [lia|reflexivity]. }
  cbn [layers_ok layer_ok layer_dout layer_sout] in HL2. destruct HL2 as [[Hok (He2 & H1 & H2 & H3)] [H4 H5]].
  rewrite <- H1, <- H2, <- H3 in Rt. pose proof Rt as [St _].
  set (sh := [N; (nf L + 1) / 2; sout L; nrep L]%nat).
  destruct (with_dropout_runs (coins (length ls)) p true 2 fuel sh (fun m => linsum2_forward L m t)) as (mask & Em & Sm & _ & Tm).
  { intros idx Hi. exists 1%nat. split; [unfold sh; cbn [nth]; rewrite H5; exact HK|]. unfold coins. destruct idx as [|a [|b idx]]; [destruct Hi|destruct Hi as [_ []]|]. cbn [insert_nth nth Nat.eqb]. apply andb_false_r. }
  specialize (Tm Hp eq_refl). destruct (linsum2_vrep L t N mask _ Hok Rt Sm) as (u & ca & Eu & Ru).
  rewrite H4, H5, H3 in Ru.
  assert (Tl: train_layers coins p true fuel E 0 (e_layers E) x1 = Some (Ok u)).
  { rewrite El, train_layers_app, Et. cbn [obind train_layers layer_train layer_rate Nat.add]. unfold linsum2_train.
    rewrite (linsum2_drop_shape t _ _ _ (sout L) _ St). fold sh. rewrite Em, Eu. reflexivity. }
  destruct (train_top coins p true fuel E HE N u _ Ru) with (x0 := x0) (x := x1) as (y & mk & Ey & Sy & _ & _ & _ & Gy); auto.
  { apply kept_draws; [apply (eo_R E HE)|]. intros idx. unfold coins. rewrite El, app_length. cbn [length]. destruct (Nat.eqb_spec (length ls + 1) (length ls)); [lia|reflexivity]. }
  exists y. split; [exact Ey|]. split; [|rewrite (lik_eval E HE N) by (auto; lia); apply neteval_row_pos; auto; lia].
  rewrite Gy by lia. rewrite (rsum_ext _ _ (fun _ => 0)).
  { rewrite rsum_const, Rmult_0_r. apply nlog_zero. }
  intros r Hr. unfold deval. rewrite (rsum_ext _ _ (fun _ => 0)); [rewrite rsum_const; ring|].
  intros k _. rewrite Tm. cbn [keepw get]. unfold coins. rewrite Nat.eqb_refl. cbn [nth Nat.eqb andb]. cbn [kept]. ring.
Qed.
Print Assumptions C82_linsum2_refuted.

(** So can the outputs of a network without layers and with several repetitions. *)
Theorem C82_flat_refuted : forall V g o (E : einet V) p fuel N x ms, accepted g o E -> evidence E N x ms ->
  nval (g_depth g) = 0%nat -> (1 < e_R E)%nat -> (0 < N)%nat -> 0 < p ->
  exists coins y, forward_train coins p true fuel E x ms = Some (Ok y) /\ get y [0; 0]%nat = NInf /\ 0 < lik E x ms 0 0.
Proof.
  intros V g o E p fuel N x ms A He Hd HR HN Hp. pose proof (accepted_ok g o E A) as HE. apply evidence_input in He. pose proof (eo_K E HE) as HK.
  destruct (accepted_built V g o E A) as [L _ D0 Pn El|l0 ls _ D1 _ El Hki|l0 ls L1 D pp _ D1 Hb _ El Hki]; [|lia|lia].
  set (coins := fun (i _ : nat) (idx : list nat) => if (i =? 0)%nat then (nth 3 idx 0 =? 0)%nat else negb (nth 3 idx 0 =? 0)%nat).
  destruct (forward_train_stage coins p true fuel E HE N x ms He) as (x0 & x1 & Ef & Ep & z & Hz & R1).
  set (vn := fun n => leafval (fnet E) (lval (pdf (leaf_of (e_leaf E))) (seen z ms n))) in R1.
  exists coins. rewrite Ef. pose proof (eo_layers E HE) as HL. rewrite El in HL. cbn [layers_ok layer_ok layer_dout layer_sout] in HL.
  destruct HL as [[Hok (H1 & H2 & H3)] [H4 H5]]. apply trep_vrep in R1. rewrite <- H1, <- H2, <- H3 in R1. pose proof R1 as [S1 _].
  destruct (with_dropout_runs (coins 0%nat) p true 3 fuel [N; nf L; sin L; nrep L] (fun m => sum_forward L m x1)) as (mask & Em & Sm & _ & Tm).
  { intros idx Hi. exists 1%nat. split; [cbn [nth]; rewrite H3; exact HR|]. unfold coins. destruct idx as [|a [|b [|c idx]]]; [destruct Hi|destruct Hi as [_ []]|destruct Hi as [_ [_ []]]|reflexivity]. }
  specialize (Tm Hp eq_refl). destruct (sum_vrep L x1 N mask _ Hok R1 Sm) as (u & ca & Eu & Ru). rewrite H4, H5, H3 in Ru.
  assert (Tl: train_layers coins p true fuel E 0 (e_layers E) x1 = Some (Ok u)).
  { rewrite El. cbn [train_layers layer_train layer_rate]. rewrite Pn. unfold sum_train. rewrite S1, Em, Eu. reflexivity. }
  destruct (train_top coins p true fuel E HE N u _ Ru) with (x0 := x0) (x := x1) as (y & mk & Ey & Sy & _ & Tk & _ & Gy); auto.
  { rewrite El. intros idx Hi. exists 0%nat. split; [cbn [nth]; lia|]. unfold coins. cbn [length Nat.eqb]. destruct idx as [|a [|b [|c idx]]]; [destruct Hi|destruct Hi as [_ []]|destruct Hi as [_ [_ []]]|reflexivity]. }
  specialize (Tk Hp eq_refl HR). exists y. split; [exact Ey|]. split; [|rewrite (lik_eval E HE N) by (auto; lia); apply neteval_row_pos; auto; lia].
  rewrite Gy by lia. rewrite (rsum_ext _ _ (fun _ => 0)).
  { rewrite rsum_const, Rmult_0_r. apply nlog_zero. }
  intros r Hr. rewrite Tk, El. cbn [keepw get length]. unfold coins at 1. cbn [nth Nat.eqb]. destruct (Nat.eqb_spec r 0) as [->|Z]; cbn [negb kept]; [|ring].
  unfold deval. rewrite (rsum_ext _ _ (fun _ => 0)); [rewrite rsum_const; ring|].
  intros k _. rewrite Tm. cbn [keepw get]. unfold coins. cbn [nth Nat.eqb kept]. ring.
Qed.
Print Assumptions C82_flat_refuted.

(** * Losses *)
(** A log-likelihood at most [b], and a loss at least [b]; infinities included. *)
Definition at_most (v : num) (b : R) : Prop := v = NInf \/ exists a, v = Fin a /\ a <= b.
Definition at_least (v : num) (b : R) : Prop := v = PInf \/ exists a, v = Fin a /\ b <= a.

Lemma nsum_at_most n f g : (forall i, (i < n)%nat -> exists b, g i = Fin b /\ at_most (f i) b) -> exists b, nsum n g = Fin b /\ at_most (nsum n f) b.
Proof.
  induction n as [|n IH]; intros H.
  - exists 0. split; [reflexivity|]. right. exists 0. split; [reflexivity|lra].
  - destruct IH as (b & Eb & Lb); [intros; apply H; lia|]. destruct (H n ltac:(lia)) as (c & Ec & Lc). exists (b + c). rewrite !nsum_S, Eb, Ec. split; [reflexivity|].
    destruct Lb as [->|(a & -> & La)], Lc as [->|(d & -> & Ld)]; cbn [nadd]; [left; auto|left; auto|left; auto|right; exists (a + d); split; [auto|lra]].
Qed.
Lemma nsum_at_least n f g : (forall i, (i < n)%nat -> exists b, g i = Fin b /\ at_least (f i) b) -> exists b, nsum n g = Fin b /\ at_least (nsum n f) b.
Proof.
  induction n as [|n IH]; intros H.
  - exists 0. split; [reflexivity|]. right. exists 0. split; [reflexivity|lra].
  - destruct IH as (b & Eb & Lb); [intros; apply H; lia|]. destruct (H n ltac:(lia)) as (c & Ec & Lc). exists (b + c). rewrite !nsum_S, Eb, Ec. split; [reflexivity|].
    destruct Lb as [->|(a & -> & La)], Lc as [->|(d & -> & Ld)]; cbn [nadd]; [left; auto|left; auto|left; auto|right; exists (a + d); split; [auto|lra]].
Qed.
Lemma at_most_neg v b : at_most v b -> at_least (nmul (Fin (-1)) v) (-1 * b).
Proof.
  intros [->|(a & -> & L)].
  - left. cbn [nmul]. destruct (Rlt_dec 0 (-1)); [lra|]. destruct (Rlt_dec (-1) 0); [reflexivity|lra].
  - right. cbn [nmul]. eexists. split; [reflexivity|lra].
Qed.
Lemma at_most_div v b n : (0 < n)%nat -> at_most v b -> at_most (ndiv v (Fin (INR n))) (b / INR n).
Proof.
  intros Hn. apply lt_0_INR in Hn. intros [->|(a & -> & L)]; unfold ndiv.
  - left. destruct (Rlt_dec (INR n) 0); [lra|reflexivity].
  - right. destruct (Req_EM_T (INR n) 0); [lra|]. eexists. split; [reflexivity|]. apply Rmult_le_compat_r; [left; apply Rinv_0_lt_compat; auto|auto].
Qed.
Lemma at_least_div v b n : (0 < n)%nat -> at_least v b -> at_least (ndiv v (Fin (INR n))) (b / INR n).
Proof.
  intros Hn. apply lt_0_INR in Hn. intros [->|(a & -> & L)]; unfold ndiv.
  - left. destruct (Rlt_dec (INR n) 0); [lra|reflexivity].
  - right. destruct (Req_EM_T (INR n) 0); [lra|]. eexists. split; [reflexivity|]. apply Rmult_le_compat_r; [left; apply Rinv_0_lt_compat; auto|auto].
Qed.
Lemma nlogsumexp_at_most n f g : (0 < n)%nat -> (forall i, (i < n)%nat -> exists b, g i = Fin b /\ at_most (f i) b) ->
  exists b, nlogsumexp n g = Fin b /\ at_most (nlogsumexp n f) b.
Proof.
  intros Hn H. set (r := fun i => match g i with Fin b => b | _ => 0 end). assert (G: forall i, (i < n)%nat -> g i = Fin (r i)).
  { intros i Hi. destruct (H i Hi) as (b & Eb & _). unfold r. rewrite Eb. reflexivity. }
  exists (ln (rsum n (fun i => exp (r i)))). split; [apply nlogsumexp_fin; auto|].
  rewrite (nlogsumexp_nlog n f (fun i => pval (f i))).
  - assert (P: rsum n (fun i => pval (f i)) <= rsum n (fun i => exp (r i))).
    { apply rsum_le. intros i Hi. destruct (H i Hi) as (b & Eb & L). rewrite G in Eb by auto. injection Eb as <-.
      destruct L as [->|(a & -> & L)]; cbn [pval]; [left; apply exp_pos|]. destruct L as [L| ->]; [left; apply exp_increasing; auto|right; auto]. }
    assert (Q: 0 <= rsum n (fun i => pval (f i))). { apply rsum_nonneg. intros i _. destruct (f i); cbn [pval]; try lra. left. apply exp_pos. }
    destruct Q as [Q|Q]; [right; exists (ln (rsum n (fun i => pval (f i)))); split; [apply nlog_pos; auto|apply ln_mono; auto]|left; rewrite <- Q; apply nlog_zero].
  - intros i Hi. destruct (H i Hi) as (b & _ & [->|(a & -> & _)]); cbn [pval]; [split; [lra|symmetry; apply nlog_zero]|].
    split; [left; apply exp_pos|]. rewrite nlog_pos by apply exp_pos. rewrite ln_exp. reflexivity.
Qed.

Section Loss.
Context {V : Type}.
Variables (g : config) (o : oracle V) (E : einet V).
Hypothesis A : accepted g o E.
Variables (coins : nat -> nat -> list nat -> bool) (p : R) (training : bool) (fuel N : nat) (x : tensor (option V)).
Hypothesis HB : batch E N x.
Lemma train_outputs y : forward_train coins p training fuel E x None = Some (Ok y) -> exists y0, forward E x None = Ok y0 /\
  shape y0 = [N; e_K E] /\ shape y = [N; e_K E] /\
  forall n k, (n < N)%nat -> (k < e_K E)%nat -> exists b, get y0 [n; k] = Fin b /\ at_most (get y [n; k]) b.
Proof.
  intros H. destruct (forward_ln g o E A N x HB) as (y0 & E0 & S0 & G0). exists y0. split; [auto|]. split; [auto|].
  assert (He: evidence E N x None) by (split; auto).
  destruct (C82_below V g o E coins p training fuel N x None y A He H) as [Sy Gy]. split; [auto|].
  intros n k Hn Hk. destruct (G0 n k Hn Hk) as [Pl ->]. eexists. split; [reflexivity|]. destruct (Gy n k Hn Hk) as [[_ Hle] [->|(a & Ea)]]; [left; auto|].
  right. exists a. split; [auto|]. rewrite Ea in Hle. cbn [pval] in Hle. rewrite <- (ln_exp a). apply ln_mono; [apply exp_pos|auto].
Qed.
End Loss.
Lemma total_at_most t t0 s : shape t = s -> shape t0 = s -> (forall idx, inb s idx -> exists b, get t0 idx = Fin b /\ at_most (get t idx) b) ->
  exists b, total t0 = Fin b /\ at_most (total t) b.
Proof. intros H H0 G. unfold total. rewrite H, H0. apply nsum_at_most. intros i Hi. apply G. apply unravel_inb. auto. Qed.
Lemma total_at_least t t0 s : shape t = s -> shape t0 = s -> (forall idx, inb s idx -> exists b, get t0 idx = Fin b /\ at_least (get t idx) b) ->
  exists b, total t0 = Fin b /\ at_least (total t) b.
Proof. intros H H0 G. unfold total. rewrite H, H0. apply nsum_at_least. intros i Hi. apply G. apply unravel_inb. auto. Qed.
Lemma inb2 a b idx : inb [a; b] idx -> exists n k, idx = [n; k] /\ (n < a)%nat /\ (k < b)%nat.
Proof. destruct idx as [|n [|k [|]]]; simpl; try tauto. intros (H1 & H2 & _). eauto. Qed.

(** Every loss of a training step is at least the loss of evaluation mode, or infinite; it is never NaN. *)
Theorem C82_generative_loss : forall V g o (E : einet V) coins p training fuel N x t, accepted g o E -> batch E N x -> (0 < N)%nat ->
  exists b, loss_is (train_loss E false x t) b /\
    forall l, generative_train_loss coins p training fuel E x = Some (Ok l) -> at_least l b.
Proof.
  intros V g o E coins p training fuel N x t A HB HN. eexists. split; [apply (C61_generative V g o E N x t A HB HN)|]. intros l H.
  pose proof (C61_generative V g o E N x t A HB HN) as C. unfold loss_is in C.
  unfold generative_train_loss in H. destruct (forward_train _ _ _ _ _ _ _) as [[y|]|] eqn:F; [|discriminate|discriminate]. cbn [obind] in H.
  destruct (train_outputs g o E A coins p training fuel N x HB y F) as (y0 & E0 & S0 & Sy & G). pose proof (classes_pos g o E A) as HK.
  unfold train_loss in C. rewrite E0 in C. cbn [bind] in C.
  assert (Q: exists lls lls0 s, log_likelihoods y None = Ok lls /\ log_likelihoods y0 None = Ok lls0 /\ shape lls = s /\ shape lls0 = s /\ (0 < numel s)%nat /\
    forall idx, inb s idx -> exists b, get lls0 idx = Fin b /\ at_most (get lls idx) b).
  { unfold log_likelihoods, size. rewrite S0, Sy. cbn [length nth]. change (2 - 1)%nat with 1%nat. cbn [nth]. destruct (Nat.eqb_spec (e_K E) 1) as [K1|K1].
    - exists y, y0, [N; e_K E]. do 4 (split; [auto|]). split; [simpl; nia|]. intros idx Hi. apply inb2 in Hi as (n & k & -> & Hn & Hk). apply G; auto.
    - do 2 eexists. exists [N]. split; [reflexivity|]. split; [reflexivity|]. unfold tlogsumexp, reduce, size. cbn [tmap shape]. rewrite S0, Sy.
      split; [reflexivity|]. split; [reflexivity|]. split; [simpl; lia|]. intros idx Hi. destruct idx as [|n [|]]; cbn [inb] in Hi; try tauto. destruct Hi as [Hn _].
      cbn [get nth insert_nth tmap]. apply nlogsumexp_at_most; auto. intros k Hk. destruct (G n k Hn Hk) as (b & Eb & Lb). rewrite Eb.
      rewrite nlog_pos by (apply lt_0_INR; auto). cbn [nsub nadd nneg]. eexists. split; [reflexivity|].
      destruct Lb as [->|(a & -> & La)]; cbn [nsub nadd nneg]; [left; auto|right; eexists; split; [reflexivity|lra]]. }
  destruct Q as (lls & lls0 & s & El & El0 & Sl & Sl0 & Hs & Gl). rewrite El in H. rewrite El0 in C. cbn [bind] in H, C.
  destruct (total_at_most lls lls0 s Sl Sl0 Gl) as (b & Eb & Lb). unfold tmean in H, C. rewrite Sl in H. rewrite Sl0, Eb in C.
  rewrite ndiv_fin in C by auto. cbn [nmul] in C. injection C as C. rewrite <- C. injection H as <-. apply at_most_neg. apply at_most_div; auto.
Qed.
Print Assumptions C82_generative_loss.

Theorem C82_lightning_loss : forall V g o (E : einet V) coins p training fuel N x r, accepted g o E -> batch E N x -> (0 < N)%nat -> r <> ROther ->
  exists b, loss_is (negative_log_likelihood E x r) b /\
    forall l, lightning_train_loss coins p training fuel E x r = Some (Ok l) -> at_least l b.
Proof.
  intros V g o E coins p training fuel N x r A HB HN Hr. destruct (C61_lightning V g o E N x A HB) as (CM & CS & _). specialize (CM HN).
  assert (C: exists b, loss_is (negative_log_likelihood E x r) b) by (destruct r; [eauto|eauto|congruence]).
  destruct C as (b & C). exists b. split; [exact C|]. intros l H. unfold loss_is in C.
  unfold lightning_train_loss in H. destruct (forward_train _ _ _ _ _ _ _) as [[y|]|] eqn:F; [|discriminate|discriminate]. cbn [obind] in H.
  destruct (train_outputs g o E A coins p training fuel N x HB y F) as (y0 & E0 & S0 & Sy & G). pose proof (classes_pos g o E A) as HK.
  unfold negative_log_likelihood in C. rewrite E0 in C. cbn [bind] in C.
  destruct (total_at_least (tmap (nmul (Fin (-1))) y) (tmap (nmul (Fin (-1))) y0) [N; e_K E] Sy S0) as (b' & Eb & Lb).
  { intros idx Hi. apply inb2 in Hi as (n & k & -> & Hn & Hk). cbn [tmap get]. destruct (G n k Hn Hk) as (c & -> & Lc). eexists. split; [reflexivity|]. apply at_most_neg. exact Lc. }
  destruct r; [| |congruence].
  - unfold tmean in H, C. rewrite Eb in C. cbn [tmap shape] in H, C. rewrite S0 in C. rewrite Sy in H. rewrite ndiv_fin in C by (simpl; nia).
    injection C as <-. injection H as <-. apply at_least_div; [simpl; nia|exact Lb].
  - rewrite Eb in C. injection C as <-. injection H as <-. exact Lb.
Qed.
Print Assumptions C82_lightning_loss.

Theorem C82_labels_loss : forall V g o (E : einet V) coins p training fuel N x labels, accepted g o E -> batch E N x -> (0 < N)%nat ->
  (1 < e_K E)%nat -> labelled (e_K E) N labels ->
  exists b, loss_is (train_loss E true x labels) b /\
    forall l, labels_train_loss coins p training fuel E x labels = Some (Ok l) -> at_least l b.
Proof.
  intros V g o E coins p training fuel N x labels A HB HN HK HL.
  destruct (C62_classification V g o E N x labels A HB HN HK HL) as (b & _ & _ & _ & C & _). exists b. split; [exact C|]. intros l H. unfold loss_is in C.
  unfold labels_train_loss in H. destruct (forward_train _ _ _ _ _ _ _) as [[y|]|] eqn:F; [|discriminate|discriminate]. cbn [obind] in H.
  destruct (train_outputs g o E A coins p training fuel N x HB y F) as (y0 & E0 & S0 & Sy & G).
  unfold train_loss in C. rewrite E0 in C. cbn [bind] in C. apply bind_ok in C as (u & _ & C). destruct HL as [Sb Hb].
  unfold nll_loss, size in H, C. rewrite S0 in C. rewrite Sy in H. rewrite Sb in H, C. cbn [nth length] in H, C. rewrite eqb_list_refl in H, C. cbn [Nat.eqb andb] in H, C.
  destruct (forallb _ _); [|discriminate].
  destruct (nsum_at_most N (fun n => get y [n; get labels [n]]) (fun n => get y0 [n; get labels [n]])) as (c & Ec & Lc); [intros n Hn; apply G; auto|].
  rewrite Ec in C. cbn [nneg] in C. rewrite ndiv_fin in C by auto. injection C as <-. injection H as <-. apply at_least_div; auto.
  destruct Lc as [->|(a & -> & La)]; cbn [nneg]; [left; auto|right; eexists; split; [reflexivity|lra]].
Qed.
Print Assumptions C82_labels_loss.

(** * Total mass *)
(** Dropout only loses mass: for any draws, even other ones for every data point, the likelihoods of all data points add up to at most one. *)
Theorem C82_mass : forall g o (E : einet nat) B p training fuel (coins : list nat -> nat -> nat -> list nat -> bool) (ys : list nat -> tensor num) k,
  accepted g o E -> discrete_leaf B (leafE E) -> (k < e_K E)%nat ->
  (forall w, In w (vectors B (e_C E * e_F E)) -> forward_train (coins w) p training fuel E (point (e_C E) (e_F E) w) None = Some (Ok (ys w))) ->
  lsum (fun w => pval (get (ys w) [0%nat; k])) (vectors B (e_C E * e_F E)) <= 1.
Proof.
  intros g o E B p training fuel coins ys k A HD Hk H. pose proof (accepted_ok g o E A) as HE.
  rewrite <- (C01_normalized g o E B k A HD Hk). apply lsum_le. intros w Hw.
  destruct (C82_below nat g o E (coins w) p training fuel 1 (point (e_C E) (e_F E) w) None (ys w) A) as [_ G].
  - split; [apply (point_batch E B HD); auto|exact I].
  - apply H; auto.
  - apply (G 0%nat k); auto.
Qed.
Print Assumptions C82_mass.

(** * The hypotheses can be met *)
Lemma accepted_leaf V g o (E : einet V) : accepted g o E -> o_leaf o (nval (g_F g)) (nval (g_C g)) (nval (g_L g)) (nval (g_R g)) = Ok (leafE E).
Proof.
  intros [Hc Ho H]. unfold build in H. apply bind_ok in H as ([] & Ha & H). destruct (g_struct g); [| |discriminate].
  - unfold build_top_down in H. apply bind_ok in H as (? & _ & H). apply bind_ok in H as (? & _ & H). apply bind_ok in H as (? & _ & H).
    apply bind_ok in H as (lf & Hl & H). apply bind_ok in H as (? & _ & H). apply bind_ok in H as (? & _ & H). injection H as <-.
    unfold build_input in Hl. apply bind_ok in Hl as (l0 & El & Hl). rewrite El. unfold leafE. cbn [e_leaf].
    destruct (_ =? 1)%nat; injection Hl as <-; reflexivity.
  - unfold build_bottom_up in H. apply bind_ok in H as (? & _ & H). apply bind_ok in H as (? & _ & H). apply bind_ok in H as (? & _ & H).
    apply bind_ok in H as (? & _ & H). apply bind_ok in H as (? & _ & H). apply bind_ok in H as (lf & Hl & H).
    apply bind_ok in H as (? & _ & H). apply bind_ok in H as (? & _ & H). injection H as <-. exact Hl.
Qed.
(** Top-down networks on four features with two classes, rate 1/2. *)
Definition ex_dr_g (Rn d : nat) (t : ltype) : config := plain 4 1 2 2 Rn 2 d (1 / 2) t STopDown.
Definition ex_dr_o (d : nat) : oracle nat := choices (group_sizes 4 (2 ^ d)) (fun _ => [0; 1; 2; 3]%nat) third.
Lemma ex_dr Rn d t : (1 <= Rn)%nat -> (d <= 2)%nat -> t <> TOtherLayer -> exists E, accepted (ex_dr_g Rn d t) (ex_dr_o d) E /\
  e_F E = 4%nat /\ e_C E = 1%nat /\ e_R E = Rn /\ e_K E = 2%nat /\ e_L E = 2%nat /\ discrete_leaf 2 (leafE E).
Proof.
  intros HR Hd Ht. assert (Ho: oracle_ok (ex_dr_g Rn d t) (ex_dr_o d)).
  { apply choices_ok; [apply Permutation_refl|]. intros r _. unfold perm_len, plain. cbn [g_struct g_R g_F]. rewrite !nval_nat. destruct (Rn =? 1)%nat; [|apply Permutation_refl]. unfold groups_of. cbn [g_F g_depth]. rewrite !nval_nat. destruct d as [|[|[|]]]; [apply Permutation_refl|apply Permutation_refl|apply Permutation_refl|lia]. }
  destruct (build_succeeds (ex_dr_g Rn d t) (ex_dr_o d)) as (E & HE).
  - apply plain_valid; try lia; try lra; try congruence. change 4%nat with (2 ^ 2)%nat. apply Nat.pow_le_mono_r; lia.
  - reflexivity.
  - exact Ho.
  - exists (1 / 2)%R. split; [constructor|lra].
  - cbn [ex_dr_g plain g_depth zval]. lia.
  - discriminate.
  - exists E. assert (A: accepted (ex_dr_g Rn d t) (ex_dr_o d) E) by (split; [reflexivity|exact Ho|exact HE]). split; [exact A|].
    destruct (build_inv (ex_dr_g Rn d t) (ex_dr_o d) E eq_refl Ho HE) as (HO & EF & EC & ER & EK). cbn [ex_dr_g plain g_F g_C g_R g_K] in *. rewrite nval_nat in *.
    repeat (split; [assumption|]).
    pose proof (accepted_leaf _ _ _ E A) as Hl. cbn [ex_dr_o choices o_leaf] in Hl. unfold ex_dr_g, plain in Hl. cbn [g_F g_C g_L g_R] in Hl. rewrite !nval_nat in Hl. injection Hl as Hl.
    split; [rewrite <- (eo_lL E HO); fold (leafE E); rewrite <- Hl; reflexivity|]. rewrite <- Hl. apply coin_discrete. apply third_ok.
Qed.
(** Two rows, one with a missing entry. *)
Definition ex_dr_x : tensor (option nat) := two_rows 1 4 (fun n _ f => if ((n =? 1) && (f =? 2))%nat then None else Some (f mod 2)%nat).
Lemma ex_dr_batch (E : einet nat) : e_F E = 4%nat -> e_C E = 1%nat -> discrete_leaf 2 (leafE E) -> batch E 2 ex_dr_x.
Proof.
  intros HF HC HD. apply two_rows_batch; auto; [apply (dl_supp 2 _ HD)|]. intros n c f u. destruct ((n =? 1) && (f =? 2))%nat; [discriminate|].
  intros H. assert (u = f mod 2)%nat as -> by congruence. apply Nat.mod_upper_bound. lia.
Qed.
Definition all_heads (_ _ : nat) (_ : list nat) : bool := false.

(** A linsum network with dropout can return (all its outputs are then numbers) and can raise; a linsum2 network and a network without layers can lose
    a class; with a single repetition an einsum network ignores its rate. *)
Example C82_ex : 
  (exists E, accepted (ex_dr_g 2 2 TLinsum) (ex_dr_o 2) E /\ keeps_children (ex_dr_g 2 2 TLinsum) /\
    (exists y, forward_train all_heads (1 / 2) true 0 E ex_dr_x None = Some (Ok y) /\ get y [1; 1]%nat = Fin (ln (lik E ex_dr_x None 1 1))) /\
    (exists coins, forward_train coins (1 / 2) true 1 E ex_dr_x None = Some (Err IndexErr))) /\
  (exists E coins y, accepted (ex_dr_g 1 2 TLinsum2) (ex_dr_o 2) E /\ forward_train coins (1 / 2) true 0 E ex_dr_x None = Some (Ok y) /\ get y [0; 0]%nat = NInf) /\
  (exists E coins y, accepted (ex_dr_g 2 0 TEinsum) (ex_dr_o 0) E /\ forward_train coins (1 / 2) true 0 E ex_dr_x None = Some (Ok y) /\ get y [0; 0]%nat = NInf) /\
  (exists E, accepted (ex_dr_g 1 2 TEinsum) (ex_dr_o 2) E /\ forall coins, forward_train coins (1 / 2) true 0 E ex_dr_x None = Some (forward E ex_dr_x None)).
Proof.
  split; [|split; [|split]].
  - destruct (ex_dr 2 2 TLinsum ltac:(lia) ltac:(lia) ltac:(discriminate)) as (E & A & HF & HC & HR & HK & HL & HD). exists E.
    assert (He: evidence E 2 ex_dr_x None) by (split; [apply ex_dr_batch; auto|exact I]).
    split; [exact A|]. split; [left; split; [unfold ex_dr_g, plain; cbn [g_depth]; rewrite nval_nat; lia|discriminate]|]. split.
    + destruct (C82_nothing_dropped _ _ _ E all_heads (1 / 2) true 0 2 ex_dr_x None A He) as (y & Ey & _ & G); [intros i idx; reflexivity|].
      exists y. split; [exact Ey|]. apply G; lia.
    + apply (C82_linsum_raises _ _ _ E (1 / 2) 0 2 ex_dr_x None A He); [reflexivity| | |lia|lra]; [unfold ex_dr_g, plain; cbn [g_depth]; rewrite nval_nat; lia|left; lia].
  - destruct (ex_dr 1 2 TLinsum2 ltac:(lia) ltac:(lia) ltac:(discriminate)) as (E & A & HF & HC & HR & HK & HL & HD).
    assert (He: evidence E 2 ex_dr_x None) by (split; [apply ex_dr_batch; auto|exact I]).
    destruct (C82_linsum2_refuted _ _ _ E (1 / 2) 0 2 ex_dr_x None A He) as (coins & y & H1 & H2 & _); [reflexivity| |lia|lia|lra|].
    { unfold ex_dr_g, plain; cbn [g_depth]; rewrite nval_nat; lia. } exists E, coins, y. auto.
  - destruct (ex_dr 2 0 TEinsum ltac:(lia) ltac:(lia) ltac:(discriminate)) as (E & A & HF & HC & HR & HK & HL & HD).
    assert (He: evidence E 2 ex_dr_x None) by (split; [apply ex_dr_batch; auto|exact I]).
    destruct (C82_flat_refuted _ _ _ E (1 / 2) 0 2 ex_dr_x None A He) as (coins & y & H1 & H2 & _); [|lia|lia|lra|].
    { unfold ex_dr_g, plain; cbn [g_depth]; rewrite nval_nat; lia. } exists E, coins, y. auto.
  - destruct (ex_dr 1 2 TEinsum ltac:(lia) ltac:(lia) ltac:(discriminate)) as (E & A & _). exists E. split; [exact A|]. intros coins.
    apply (C82_einsum_ignores_dropout _ _ _ E coins (1 / 2) true 0 ex_dr_x None A); [reflexivity| |]; unfold ex_dr_g, plain; cbn [g_depth g_R]; rewrite nval_nat; lia.
Qed.
