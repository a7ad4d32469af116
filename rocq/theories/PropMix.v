(** C31, C32: the mixture of networks. *)
From Coq Require Import List Arith Lia Bool ZArith Reals Lra Permutation.
Import ListNotations.
From Verif Require Import Base RSum Num Tensor Prob Layers Circuit Net RefFwd Leaf RefLeaf TypeChecks Einet RefNet RefEinet RefEinetS RefMpe Build RefBuild Spec RefSpec RefSpecS RefPack RefPost Mixture RefMixture Ex.

(** A mixture that the constructor returned: [os] are the random choices made for its components. *)
Record mixture_of {V} (nc : pyval) (g : config) (os : list (oracle V)) (Es : list (einet V)) : Prop := {
  mo_card : g_card g = None;
  mo_oracles : forall o, In o os -> oracle_ok g o;
  mo_enough : nval nc <= length os;
  mo_build : mixture_build nc g os = Ok Es }.
(** An assignment of the rows of a batch to components. *)
Definition clusters_ok {V} (Es : list (einet V)) (N : nat) (cs : list nat) : Prop :=
  length cs = N /\ forall c, In c cs -> c < length Es.

Lemma mixture_components {V} nc g os (Es : list (einet V)) : mixture_of nc g os Es ->
  length Es = nval nc /\ 0 < length Es /\ forall E, In E Es -> exists o, accepted g o E.
Proof.
  intros [Hc Ho He Hb]. unfold mixture_build in Hb. apply bind_ok in Hb as ([] & Hn & Hb).
  destruct (Base.mapM_ok _ _ _ Hb) as [HL HE].
  assert (HN: 1 <= nval nc).
  { destruct (check_int_inv nc 1 ltac:(lia) Hn) as (Hz & _). unfold nval. lia. }
  rewrite firstn_length in HL. split; [lia|]. split; [lia|]. intros E Hin.
  apply In_nth_error in Hin as (i & Hi). assert (Hlt: i < length Es) by (apply nth_error_Some; congruence).
  destruct (nth_error (firstn (nval nc) os) i) as [o|] eqn:Eo.
  2: { apply nth_error_None in Eo. rewrite firstn_length in Eo. lia. }
  exists o. split; auto; [|eapply HE; eauto]. apply Ho. apply nth_error_In in Eo. rewrite <- (firstn_skipn (nval nc) os). apply in_or_app. auto.
Qed.

(** * C31: the forward pass of a mixture *)
(** Row n of the result is the log-likelihood of row n under the component of its cluster, whatever the
    clusters are.  What is missing: with [ms] given, this is still the log-likelihood of the complete row. *)
Theorem C31_rows_partial : forall V nc g os (Es : list (einet V)) predict x ms N,
  mixture_of nc g os Es -> (forall E, In E Es -> batch E N x) -> 0 < N -> clusters_ok Es N (predict x ms) ->
  exists y, mix_forward Es predict x ms = Ok y /\ shape y = [N; nval (g_K g)] /\
  forall n k, n < N -> k < nval (g_K g) ->
    exists E yE, nth_error Es (nth n (predict x ms) 0) = Some E /\ forward E x None = Ok yE /\ get y [n; k] = get yE [n; k].
Proof.
  intros V nc g os Es predict x ms N HM Hb HN [HL Hc]. destruct (mixture_components _ _ _ _ HM) as (_ & _ & HA).
  exact (mix_forward_ok g Es HA predict x ms N Hb HN HL Hc).
Qed.
Print Assumptions C31_rows_partial.
(** An empty batch raises. *)
Theorem C31_empty_raises : forall V (Es : list (einet V)) predict x ms, predict x ms = [] -> mix_forward Es predict x ms = Err ValueErr.
Proof. intros V Es predict x ms H. unfold mix_forward. rewrite H. reflexivity. Qed.
Print Assumptions C31_empty_raises.

(** ** Example: two components with different leaves *)
Definition quarter (key : list nat) : R := 1 / 4.
Lemma quarter_ok key : (0 < quarter key < 1)%R.
Proof. unfold quarter. lra. Qed.
Definition ex_o (p : list nat -> R) : oracle nat := choices [1; 2; 1; 1] ex_td_perm p.
Lemma ex_o_oracle p : oracle_ok ex_bu_g (ex_o p).
Proof.
  apply choices_ok.
  - cbn. perms.
  - intros r Hr. unfold perm_len, plain. cbn [g_struct g_R g_F]. rewrite !nval_nat.
    destruct r as [|[|]]; [| |lia]; unfold ex_td_perm; cbn [Nat.eqb]; perms.
Qed.
Lemma ex_o_build p : exists E, build ex_bu_g (ex_o p) = Ok E /\ leafE E = coin p 5 1 2 2.
Proof.
  destruct (build_succeeds ex_bu_g (ex_o p)) as (E & HE).
  - apply plain_valid; try lia; try lra; try congruence. simpl; lia.
  - reflexivity.
  - apply ex_o_oracle.
  - exists 0%R. split; [constructor|lra].
  - cbn [ex_bu_g plain g_depth zval]. lia.
  - intros _. cbn [ex_bu_g plain g_depth zval]. lia.
  - exists E. split; auto.
    unfold build in HE. apply bind_ok in HE as ([] & _ & HE). cbn [ex_bu_g plain g_struct] in HE. unfold build_bottom_up in HE.
    apply bind_ok in HE as (? & _ & HE). apply bind_ok in HE as (? & _ & HE). apply bind_ok in HE as (? & _ & HE).
    apply bind_ok in HE as (? & _ & HE). apply bind_ok in HE as (? & _ & HE). apply bind_ok in HE as (lf & Hl & HE).
    apply bind_ok in HE as (? & _ & HE). apply bind_ok in HE as (? & _ & HE).
    inversion HE. unfold leafE. cbn [e_leaf leaf_of]. cbn [ex_o choices o_leaf] in Hl.
    unfold ex_bu_g, plain in Hl. cbn [g_F g_C g_L g_R] in Hl. rewrite !nval_nat in Hl. inversion Hl. reflexivity.
Qed.
Lemma ex_mixture : exists E1 E2, mixture_of (VInt 2) ex_bu_g [ex_o third; ex_o quarter] [E1; E2] /\
  leafE E1 = coin third 5 1 2 2 /\ leafE E2 = coin quarter 5 1 2 2.
Proof.
  destruct (ex_o_build third) as (E1 & B1 & L1). destruct (ex_o_build quarter) as (E2 & B2 & L2). exists E1, E2. split; [|auto].
  split.
  - reflexivity.
  - intros o [<-|[<-|[]]]; apply ex_o_oracle.
  - cbn. unfold nval. cbn. lia.
  - unfold mixture_build. pose proof (check_nat 2 ltac:(lia)) as CN. change (Z.of_nat 2) with 2%Z in CN. rewrite CN. cbn [bind]. change (nval (VInt 2)) with 2. cbn [firstn mapM]. rewrite B1, B2. reflexivity.
Qed.
Lemma ex_dims o (E : einet nat) : accepted ex_bu_g o E -> e_F E = 5 /\ e_C E = 1 /\ e_K E = 1.
Proof.
  intros [H1 H2 H3]. destruct (build_inv _ _ _ H1 H2 H3) as (_ & HF & HC & _ & HK). cbn [ex_bu_g plain g_F g_C g_K] in *. rewrite nval_nat in *. auto.
Qed.
(** A batch of rows given by a table. *)
Definition table (N : nat) (v : nat -> nat -> option nat) : tensor (option nat) :=
  mkT [N; 1; 5] (fun idx => match idx with [n; _; f] => v n f | _ => None end).
Lemma table_batch o (E : einet nat) p N v : accepted ex_bu_g o E -> leafE E = coin p 5 1 2 2 -> (forall n f u, v n f = Some u -> u < 2) -> batch E N (table N v).
Proof.
  intros A HL Hv. destruct (ex_dims o E A) as (HF & HC & HK). split; [right; left; cbn; congruence|].
  intros n c f u _ _ _ Hu. rewrite HL. cbn [coin lf_supp]. apply Nat.ltb_lt. apply (Hv n f). exact Hu.
Qed.
Definition stripes (n f : nat) : option nat := Some ((n + f) mod 2).
Lemma stripes_lt n f u : stripes n f = Some u -> u < 2.
Proof. unfold stripes. intros H. assert (u = (n + f) mod 2) as -> by congruence. apply Nat.mod_upper_bound. lia. Qed.
(** Rows 0 and 2 belong to component 1, row 1 to component 0. *)
Example C31_ex : exists nc g os (Es : list (einet nat)), mixture_of nc g os Es /\ length Es = 2 /\
  exists y, mix_forward Es (fun _ _ => [1; 0; 1]) (table 3 stripes) None = Ok y /\ shape y = [3; 1] /\
  exists E0 y0, nth_error Es 0 = Some E0 /\ forward E0 (table 3 stripes) None = Ok y0 /\ get y [1; 0] = get y0 [1; 0].
Proof.
  destruct ex_mixture as (E1 & E2 & HM & L1 & L2). exists (VInt 2), ex_bu_g, [ex_o third; ex_o quarter], [E1; E2].
  split; [exact HM|]. split; [reflexivity|]. destruct (mixture_components _ _ _ _ HM) as (_ & _ & HA).
  destruct (C31_rows_partial nat _ _ _ _ (fun _ _ => [1; 0; 1]) (table 3 stripes) None 3 HM) as (y & Ey & Sy & Gy).
  - intros E [<-|[<-|[]]].
    + destruct (HA E1 (or_introl eq_refl)) as (o & A). eapply table_batch; eauto. apply stripes_lt.
    + destruct (HA E2 (or_intror (or_introl eq_refl))) as (o & A). eapply table_batch; eauto. apply stripes_lt.
  - lia.
  - split; [reflexivity|]. intros c [<-|[<-|[<-|[]]]]; cbn; lia.
  - exists y. split; [exact Ey|]. split; [exact Sy|]. apply (Gy 1 0); [lia|]. cbn. lia.
Qed.

(** With one component every row is in its cluster.  The mixture returns the log-likelihood of the whole row
    although all features are marginalized; the component itself returns 0. *)
Theorem C31_scope_refuted : exists nc g os (E : einet nat) predict x ms y z,
  mixture_of nc g os [E] /\ batch E 1 x /\ scopes_ok E 1 x ms /\ predict x (Some ms) = [0] /\
  mix_forward [E] predict x (Some ms) = Ok y /\ forward E x (Some ms) = Ok z /\ get y [0; 0] <> get z [0; 0].
Proof.
  destruct (ex_o_build third) as (E & B & L).
  assert (HM: mixture_of (VInt 1) ex_bu_g [ex_o third] [E]).
  { split; [reflexivity|intros o [<-|[]]; apply ex_o_oracle|cbn; unfold nval; cbn; lia|].
    unfold mixture_build. pose proof (check_nat 1 ltac:(lia)) as CN. change (Z.of_nat 1) with 1%Z in CN. rewrite CN. cbn [bind]. change (nval (VInt 1)) with 1. cbn [firstn mapM]. rewrite B. reflexivity. }
  assert (A: accepted ex_bu_g (ex_o third) E) by (split; [reflexivity|apply ex_o_oracle|exact B]).
  destruct (ex_dims _ E A) as (HF & HC & HK).
  assert (D: discrete_leaf 2 (leafE E)) by (rewrite L; apply coin_discrete, third_ok).
  set (x := point 1 5 [0; 0; 0; 0; 0]). set (ms := [0; 1; 2; 3; 4]).
  assert (Bx: batch E 1 x).
  { split; [right; left; cbn; congruence|]. intros n c f u _ _ Hf Hu. rewrite L. cbn [coin lf_supp]. apply Nat.ltb_lt.
    cbn in Hu. destruct (c * 5 + f) as [|[|[|[|[|k]]]]]; cbn in Hu; try (assert (u = 0) by congruence; lia). destruct k; assert (u = 0) by congruence; lia. }
  assert (Sx: scopes_ok E 1 x ms).
  { split.
    - intros f Hf. rewrite HF. cbn in Hf. lia.
    - intros n c f _ _ Hf Hn. exfalso. apply Hn. cbn. rewrite HF in Hf. lia. }
  destruct (C31_rows_partial nat (VInt 1) ex_bu_g [ex_o third] [E] (fun _ _ => [0]) x (Some ms) 1 HM) as (y & Ey & Sy & Gy).
  { intros E' [<-|[]]. auto. }
  { lia. }
  { split; [reflexivity|]. intros c [<-|[]]. cbn. lia. }
  destruct (Gy 0 0 ltac:(lia)) as (E' & yE & H1 & H2 & H3); [cbn; lia|]. cbn in H1. assert (E' = E) by congruence. subst E'.
  destruct (forward_missing E (accepted_ok _ _ E A) 1 x (Some ms) 0 0 (batch_input_ms E 1 x ms Bx Sx)) as (z & Ez & Gz); [lia|lia| |].
  { intros c f Hc Hf. left. rewrite HF in Hf. destruct f as [|[|[|[|[|f]]]]]; try reflexivity. lia. }
  exists (VInt 1), ex_bu_g, [ex_o third], E, (fun _ _ => [0]), x, ms, y, z. repeat (split; [assumption || reflexivity|]).
  rewrite H3, Gz. intros Z.
  assert (P: forall w, In w (vectors 2 5) -> (0 < lik E (point 1 5 w) None 0 0)%R).
  { intros w Hw. rewrite (vectors_complete 2 5 w) in Hw. destruct Hw as [Hw1 Hw2].
    assert (Bw: batch E 1 (point 1 5 w)).
    { split; [right; left; cbn; congruence|]. intros n c f u _ Hc Hf Hu. rewrite L. cbn [coin lf_supp]. apply Nat.ltb_lt. cbn in Hu.
      assert (u = nth (c * 5 + f) w 0) as -> by congruence. apply Hw2. apply nth_In. rewrite HF in Hf. rewrite HC in Hc. nia. }
    destruct (forward_total E (accepted_ok _ _ E A) 1 _ None (batch_input _ _ _ Bw)) as (yw & Ew & _ & Fw).
    unfold lik. rewrite Ew. specialize (Fw 0 0 ltac:(lia) ltac:(lia)). destruct (get yw [0; 0]); try discriminate. cbn [pval]. apply exp_pos. }
  pose proof (lik_normalized E (accepted_ok _ _ E A) 2 D 0 ltac:(lia)) as T. rewrite HC, HF in T.
  change (vectors 2 (1 * 5)) with ([0; 0; 0; 0; 0] :: tl (vectors 2 5)) in T. cbn [lsum] in T. fold x in T.
  assert (Q: (0 < lsum (fun w => lik E (point 1 5 w) None 0 0) (tl (vectors 2 5)))%R).
  { apply lsum_pos; [discriminate|]. intros w Hw. apply P. right. exact Hw. }
  unfold lik at 1 in T. rewrite H2, Z in T. cbn [pval] in T. rewrite exp_0 in T. lra.
Qed.
Print Assumptions C31_scope_refuted.

(** * C32: samples of a mixture *)
Lemma clusters_outcome {V} (supp : list nat -> V -> Prop) nc w n per mpe cs0 : outcome supp (mix_clusters nc w n per mpe) (Ok cs0) ->
  exists cs, Ok cs0 = Ok cs /\ (0 < length w <= nc -> forall c, In c cs -> c < nc) /\
  length cs = (if mpe then 1 else match per with Some m => m * nc | None => n end).
Proof.
  unfold mix_clusters. destruct mpe; [|destruct per as [m|]]; intros Ho.
  - apply outcome_ret_inv in Ho. eexists. split; [exact Ho|]. split; auto. intros Hw c [<-|[]]. pose proof (nargmax_lt (length w) (fun i => Fin (nth i w 0%R)) ltac:(lia)). lia.
  - apply outcome_ret_inv in Ho. eexists. split; [exact Ho|]. split.
    + intros _ c Hc. apply in_flat_map in Hc as (i & Hi & Hc). apply repeat_spec in Hc. subst i. apply in_seq in Hi. lia.
    + clear. generalize 0. induction nc as [|k IH]; intros i; cbn [seq flat_map length]; [lia|]. rewrite app_length, repeat_length, IH. lia.
  - revert cs0 Ho. induction n as [|n IH]; cbn [repeat draws]; intros cs0 Ho.
    + apply outcome_ret_inv in Ho. exists []. split; auto. split; auto. intros _ ? [].
    + apply outcome_bind in Ho as [(e & _ & Ho)|(i & Ho & Hr)]; [discriminate|].
      inversion Ho; subst. match goal with H : outcome _ (Ret _) _ |- _ => inversion H; subst end.
      apply outcome_bind in Hr as [(e & _ & Hr)|(l & Hr & Hx)]; [discriminate|].
      destruct (IH _ Hr) as (l' & Z & G1 & G2). inversion Z; subst l'. apply outcome_ret_inv in Hx. exists (i :: l). split; auto. split.
      * intros Hw c [<-|Hc]; [|auto]. rewrite map_length in *. lia.
      * cbn. congruence.
Qed.
Lemma clusters_fail {V} (supp : list nat -> V -> Prop) nc w n per mpe e : outcome supp (mix_clusters nc w n per mpe) (Err e) -> length w = 0 /\ per = None /\ mpe = false.
Proof.
  unfold mix_clusters. destruct mpe; [|destruct per as [m|]]; intros Ho; try (apply outcome_ret_inv in Ho; discriminate).
  split; [|auto]. apply outcome_draws in Ho as [(e' & d & _ & Hd & Ho)|(l & X & _)]; [|discriminate].
  apply repeat_spec in Hd. subst d. inversion Ho; subst; [|rewrite map_length in *; auto].
  match goal with H : outcome _ (Ret _) _ |- _ => inversion H end.
Qed.

(** With evidence, row n of every result completes row n of the evidence from the component of its
    cluster; the clusters are arbitrary. *)
Theorem C32_evidence : forall V nc g os (Es : list (einet V)) weights predict e ms N num per cl mpe mpel T supp r,
  mixture_of nc g os Es -> (forall E, In E Es -> evidence E N e ms /\ lf_ctx (leafE E) = true) ->
  0 < N -> clusters_ok Es N (predict e ms) -> 0 < length weights -> T <> 0%R -> (num = None \/ per = None) ->
  (mpe = true -> forall E, In E Es -> lf_mode (leafE E) <> None) ->
  outcome supp (mix_sample Es weights predict (mkMArgs num per cl (Some e) mpe mpel T ms)) r ->
  exists t, r = Ok t /\ shape t = shape e /\
  forall n ch f, n < N -> ch < nval (g_C g) -> f < nval (g_F g) ->
    match observed e ms n ch f with
    | Some v => entry t n ch f = Some v
    | None => exists E w, nth_error Es (nth n (predict e ms) 0) = Some E /\ entry t n ch f = Some w /\
                from_component E supp mpe (nth n (predict e ms) 0) ch f w
    end.
Proof.
  intros V nc g os Es weights predict e ms N num per cl mpe mpel T supp r HM HE HN [HL Hc] Hw HT Hnp Hmd Ho.
  destruct (mixture_components _ _ _ _ HM) as (_ & _ & HA). unfold mix_sample in Ho. cbn [m_n m_per m_ev m_class m_mpe m_mpel m_tsum m_ms] in Ho.
  assert (Z: assert (is_none num || is_none per) = Ok tt) by (destruct Hnp as [->| ->]; [reflexivity|destruct num; reflexivity]).
  rewrite Z in Ho. cbn [lift mbind] in Ho. apply outcome_bind in Ho as [(e' & Ho & ->)|(cs & _ & Ho)].
  { apply clusters_fail in Ho as (Z0 & Z1 & _). solve [discriminate|lia]. }
  apply (mix_given_ok g Es HA (fun E H => proj2 (HE E H)) predict e ms N mpe T (fun E H => proj1 (HE E H)) HN HL Hc HT Hmd supp r Ho).
Qed.
Print Assumptions C32_evidence.

(** Without evidence there is one row for every drawn component, and as many rows come from each
    component as it was drawn.  What is missing: the order. *)
Definition class_fits (g : config) (cl : class_arg) : Prop :=
  match cl with CNone => True | CInt y => 1 < nval (g_K g) /\ y < nval (g_K g) | CList _ => False end.
Theorem C32_rows_partial : forall V nc g os (Es : list (einet V)) cs cl mpe mpel T ms supp r,
  mixture_of nc g os Es -> (forall E, In E Es -> lf_ctx (leafE E) = true) ->
  0 < length cs -> clusters_ok Es (length cs) cs -> class_fits g cl -> T <> 0%R ->
  (mpe || mpel = true -> forall E, In E Es -> lf_mode (leafE E) <> None) ->
  outcome supp (mix_sample_free Es (fun k => mkArgs (Some k) cl None mpe mpel T ms) cs) r ->
  exists t src, r = Ok t /\ shape t = [length cs; nval (g_C g); nval (g_F g)] /\ Permutation src cs /\
  forall n ch f, n < length cs -> ch < nval (g_C g) -> f < nval (g_F g) ->
    exists E w, nth_error Es (nth n src 0) = Some E /\ entry t n ch f = Some w /\ from_component E supp (mpe || mpel) (nth n src 0) ch f w.
Proof.
  intros V nc g os Es cs cl mpe mpel T ms supp r HM Hctx HN [_ Hc] Hcl HT Hmd Ho. destruct (mixture_components _ _ _ _ HM) as (_ & _ & HA).
  destruct (mix_free_ok g Es HA Hctx cs cl mpe mpel T ms) with (supp := supp) (r := r) as (t & src & H1 & H2 & H3 & _ & _ & H4); auto.
  { intros ->. cbn in HN. lia. }
  exists t, src. auto.
Qed.
Print Assumptions C32_rows_partial.
(** sample(num_samples=n) returns n rows. *)
Theorem C32_count_partial : forall V nc g os (Es : list (einet V)) weights predict n cl mpel T ms supp r,
  mixture_of nc g os Es -> (forall E, In E Es -> lf_ctx (leafE E) = true) -> 0 < length weights <= length Es ->
  0 < n -> class_fits g cl -> T <> 0%R -> (mpel = true -> forall E, In E Es -> lf_mode (leafE E) <> None) ->
  outcome supp (mix_sample Es weights predict (mkMArgs (Some n) None cl None false mpel T ms)) r ->
  exists t, r = Ok t /\ shape t = [n; nval (g_C g); nval (g_F g)].
Proof.
  intros V nc g os Es weights predict n cl mpel T ms supp r HM Hctx Hw HN Hcl HT Hmd Ho.
  destruct (mixture_components _ _ _ _ HM) as (_ & Hpos & HA).
  unfold mix_sample in Ho. cbn [m_n m_per m_ev m_class m_mpe m_mpel m_tsum m_ms is_none orb assert lift mbind] in Ho.
  apply outcome_bind in Ho as [(e' & Ho & ->)|(cs & Hcs & Ho)].
  { apply clusters_fail in Ho as (Z0 & Z1 & _). solve [discriminate|lia]. }
  destruct (clusters_outcome _ _ _ _ _ _ _ Hcs) as (cs' & X & H1 & H2). assert (cs' = cs) by congruence. subst cs'. clear X. cbn in H2.
  destruct (C32_rows_partial V nc g os Es cs cl false mpel T ms supp r HM Hctx) as (t & src & E1 & E2 & _); auto.
  - lia.
  - split; auto.
  - exists t. rewrite H2 in E2. auto.
Qed.
Print Assumptions C32_count_partial.
Lemma sorted_app l l' : sorted l -> sorted l' -> (forall a b, In a l -> In b l' -> a <= b) -> sorted (l ++ l').
Proof.
  induction 1 as [|a l Ha Hl IH]; cbn [app]; intros Hl' H; auto. constructor.
  - intros b Hb. apply in_app_or in Hb as [Hb|Hb]; auto. apply H; [left|]; auto.
  - apply IH; auto. intros x y Hx. apply H. right. auto.
Qed.
Lemma sorted_repeat c m : sorted (repeat c m).
Proof. induction m; cbn; constructor; auto. intros b Hb. apply repeat_spec in Hb. lia. Qed.
Lemma blocks m : 0 < m -> forall k i, sorted (flat_map (fun c => repeat c m) (seq i k)) /\
  forall n, n < m * k -> nth n (flat_map (fun c => repeat c m) (seq i k)) 0 = i + n / m.
Proof.
  intros HN k. induction k as [|k IH]; intros i; cbn [seq flat_map]; [split; [constructor|lia]|].
  destruct (IH (S i)) as [I1 I2]. split.
  - apply sorted_app; auto; [apply sorted_repeat|]. intros a b Ha Hb. apply repeat_spec in Ha. apply in_flat_map in Hb as (j & Hj & Hb).
    apply repeat_spec in Hb. apply in_seq in Hj. lia.
  - intros n Hn. destruct (Nat.lt_ge_cases n m) as [H|H].
    + rewrite app_nth1 by (rewrite repeat_length; auto). rewrite Nat.div_small by auto. rewrite nth_indep with (d' := i) by (rewrite repeat_length; auto). rewrite nth_repeat. lia.
    + rewrite app_nth2, repeat_length by (rewrite repeat_length; auto). rewrite I2 by lia.
      replace n with (n - m + 1 * m) at 2 by lia. rewrite Nat.div_add by lia. lia.
Qed.
(** sample(num_samples_per_cluster=m): rows j*m .. j*m+m-1 come from component j. *)
Theorem C32_per_cluster : forall V nc g os (Es : list (einet V)) weights predict m cl mpel T ms supp r,
  mixture_of nc g os Es -> (forall E, In E Es -> lf_ctx (leafE E) = true) ->
  0 < m -> class_fits g cl -> T <> 0%R -> (mpel = true -> forall E, In E Es -> lf_mode (leafE E) <> None) ->
  outcome supp (mix_sample Es weights predict (mkMArgs None (Some m) cl None false mpel T ms)) r ->
  exists t, r = Ok t /\ shape t = [m * length Es; nval (g_C g); nval (g_F g)] /\
  forall n ch f, n < m * length Es -> ch < nval (g_C g) -> f < nval (g_F g) ->
    exists E w, nth_error Es (n / m) = Some E /\ entry t n ch f = Some w /\ from_component E supp mpel (n / m) ch f w.
Proof.
  intros V nc g os Es weights predict m cl mpel T ms supp r HM Hctx HN Hcl HT Hmd Ho.
  destruct (mixture_components _ _ _ _ HM) as (_ & Hpos & HA).
  unfold mix_sample in Ho. cbn [m_n m_per m_ev m_class m_mpe m_mpel m_tsum m_ms is_none orb assert lift mbind] in Ho.
  apply outcome_bind in Ho as [(e' & Ho & ->)|(cs & Hcs & Ho)].
  { apply clusters_fail in Ho as (Z0 & Z1 & _). solve [discriminate|lia]. }
  destruct (clusters_outcome _ _ _ _ _ _ _ Hcs) as (cs' & X & H1 & H2). assert (cs' = cs) by congruence. subst cs'. clear X. cbn in H2.
  cbn [mix_clusters] in Hcs. apply outcome_ret_inv in Hcs.
  assert (Ecs: cs = flat_map (fun c => repeat c m) (seq 0 (length Es))) by congruence.
  destruct (blocks m HN (length Es) 0) as [B1 B2]. rewrite <- Ecs in B1, B2.
  destruct (mix_free_ok g Es HA Hctx cs cl false mpel T ms) with (supp := supp) (r := r) as (t & src & G1 & G2 & _ & G4 & _ & G6); auto.
  { intros Z. rewrite Z in H2. cbn in H2. assert (0 < m * length Es) by nia. lia. }
  { intros c Hc. rewrite Ecs in Hc. apply in_flat_map in Hc as (j & Hj & Hc). apply repeat_spec in Hc. subst j. apply in_seq in Hj. lia. }
  exists t. rewrite H2 in G2, G6. split; auto. split; auto. intros n ch f Hn Hch Hf. destruct (G6 n ch f Hn Hch Hf) as (E & w & K1 & K2 & K3).
  rewrite (G4 B1), (B2 n Hn) in K1, K3. exists E, w. auto.
Qed.
Print Assumptions C32_per_cluster.

(** ** Examples and refutations *)
Lemma expect_outcome {V A} (v0 : V) (m : M V A) (g : A -> R) : expect (fun _ f => f v0) m g <> 0%R -> exists a, outcome (fun _ v => v = v0) m (Ok a).
Proof.
  induction m as [a|e|w k IH|key k IH]; cbn [expect]; intros H.
  - exists a. constructor.
  - contradiction.
  - destruct (Classical_Prop.classic (exists i, i < length w /\ expect (fun _ f => f v0) (k i) g <> 0%R)) as [(i & Hi & Hn)|Hz].
    + destruct (IH i Hn) as (a & Ha). exists a. econstructor; eauto.
    + exfalso. apply H. rewrite (rsum_ext _ _ (fun _ => 0%R)); [apply rsum_zero|]. intros i Hi. destruct (Req_dec (expect (fun _ f => f v0) (k i) g) 0) as [->|Hn]; [ring|]. exfalso. apply Hz. exists i. auto.
  - destruct (IH v0 H) as (a & Ha). exists a. econstructor; eauto.
Qed.
Lemma sample_exists g o (E : einet nat) n v0 : accepted g o E -> lf_ctx (leafE E) = true -> e_K E = 1 -> 0 < n ->
  exists t, outcome (fun _ v => v = v0) (sample E (mkArgs (Some n) CNone None false false 1 None)) (Ok t).
Proof.
  intros A Hctx HK Hn. pose proof (accepted_ok g o E A) as HE. set (a := mkArgs (Some n) CNone None false false 1 None).
  assert (HEL: leaf_expectation (fun (_ : list nat) (f : nat -> R) => f v0)) by (split; intros; auto).
  destruct (sample_free_law E HE _ HEL a) as [_ X]; auto.
  - unfold check_args. cbn. rewrite HK. reflexivity.
  - exact I.
  - cbn. lra.
  - eapply (expect_outcome v0). rewrite (X (fun _ _ _ _ => 1%R)). apply Rgt_not_eq, rprod_pos. intros i Hi. rewrite HK, rsum_S, rsum_0.
    unfold cweight. rewrite HK. cbn [Nat.ltb Nat.leb]. rewrite neteval_one; [lra|apply snet_wf; auto|cbn; lia|]. intros c f l r _ _ _ _. reflexivity.
Qed.
(** Component [c] always returns the value [c]. *)
Definition own_value (key : list nat) (v : nat) : Prop := match key with c :: _ => v = c | [] => False end.
(** Components 1, 0, 0 are drawn, and row 0 of the result comes from component 0. *)
Theorem C32_order_refuted : exists nc g os (Es : list (einet nat)) E t,
  mixture_of nc g os Es /\ (forall E, In E Es -> lf_ctx (leafE E) = true) /\
  outcome own_value (mix_clusters 2 [1 / 2; 1 / 2]%R 3 None false) (Ok [1; 0; 0]) /\
  outcome own_value (mix_sample_free Es (fun k => mkArgs (Some k) CNone None false false 1 None) [1; 0; 0]) (Ok t) /\
  nth_error Es 1 = Some E /\ exists w, entry t 0 0 0 = Some w /\ ~ from_component E own_value false 1 0 0 w.
Proof.
  destruct ex_mixture as (E1 & E2 & HM & L1 & L2). destruct (mixture_components _ _ _ _ HM) as (_ & _ & HA).
  destruct (HA E1 (or_introl eq_refl)) as (o1 & A1). destruct (HA E2 (or_intror (or_introl eq_refl))) as (o2 & A2).
  destruct (ex_dims o1 E1 A1) as (F1 & C1 & K1). destruct (ex_dims o2 E2 A2) as (F2 & C2 & K2).
  assert (X1: lf_ctx (leafE E1) = true) by (rewrite L1; reflexivity). assert (X2: lf_ctx (leafE E2) = true) by (rewrite L2; reflexivity).
  assert (Hctx: forall E, In E [E1; E2] -> lf_ctx (leafE E) = true) by (intros E [<-|[<-|[]]]; auto).
  destruct (sample_exists _ _ E2 1 1 A2 X2 K2 ltac:(lia)) as (t1 & O1). destruct (sample_exists _ _ E1 2 0 A1 X1 K1 ltac:(lia)) as (t0 & O0).
  assert (Ex: exists r, outcome own_value (mix_sample_free [E1; E2] (fun k => mkArgs (Some k) CNone None false false 1 None) [1; 0; 0]) r).
  { unfold mix_sample_free. cbn [separate add_idx Nat.eqb app map draws component nth_error lift mbind length].
    match goal with |- exists r, outcome _ (mbind _ ?f) r => assert (B: exists r, outcome own_value (f [t1; t0]) r) end.
    { match goal with |- exists r, outcome _ (lift ?x) r => destruct x; cbn [lift]; eexists; constructor end. }
    destruct B as (r & B). exists r. eapply outcome_bind_intro; [|exact B].
    eapply outcome_bind_intro; [apply tag_outcome; exact O1|].
    eapply outcome_bind_intro; [|constructor]. eapply outcome_bind_intro; [apply tag_outcome; exact O0|]. cbn [mbind]. constructor. }
  destruct Ex as (r & Ho).
  assert (H01: forall c, In c [1; 0; 0] -> c < length [E1; E2]) by (intros c [<-|[<-|[<-|[]]]]; cbn; lia).
  destruct (mix_free_ok ex_bu_g [E1; E2] HA Hctx [1; 0; 0] CNone false false 1 None) with (supp := own_value) (r := r)
    as (t & src & -> & St & _ & _ & (perm & Ep & Es) & Ht); auto; try discriminate; try lra.
  { exact I. }
  exists (VInt 2), ex_bu_g, [ex_o third; ex_o quarter], [E1; E2], E2, t. split; [exact HM|]. split; [exact Hctx|]. split.
  { unfold mix_clusters. cbn [repeat draws map mbind].
    apply out_cat with (i := 1); [cbn; lia|]. apply out_cat with (i := 0); [cbn; lia|]. apply out_cat with (i := 0); [cbn; lia|]. constructor. }
  split; [exact Ho|]. split; [reflexivity|].
  assert (Esrc: src = [0; 0; 1]).
  { rewrite Es. cbn in Ep. assert (perm = [1; 2; 0]) as -> by congruence. reflexivity. }
  destruct (Ht 0 0 0) as (E & w & Hn & Hw & l & rr & _ & _ & Hs); [cbn; lia|cbn; lia|cbn; lia|].
  rewrite Esrc in Hs. cbn in Hs. exists w. split; auto. intros (l' & r' & _ & _ & Hs'). cbn in Hs'. congruence.
Qed.
Print Assumptions C32_order_refuted.
(** sample(num_samples=3, is_mpe=True) returns one row. *)
Theorem C32_mpe_refuted : exists nc g os (Es : list (einet nat)) weights predict t,
  mixture_of nc g os Es /\ length weights = length Es /\
  mix_sample Es weights predict (mkMArgs (Some 3) None CNone None true false 1 None) = Ret t /\ shape t = [1; 1; 5].
Proof.
  destruct ex_mixture as (E1 & E2 & HM & L1 & L2). destruct (mixture_components _ _ _ _ HM) as (_ & _ & HA).
  destruct (HA E1 (or_introl eq_refl)) as (o1 & A1). destruct (ex_dims o1 E1 A1) as (F1 & C1 & K1).
  assert (X1: lf_ctx (leafE E1) = true) by (rewrite L1; reflexivity).
  set (a := @mkArgs nat (Some 1) CNone None true false 1 None).
  destruct (sample_free_out E1 (accepted_ok _ _ E1 A1) a) as [O D]; auto.
  { unfold check_args. cbn. rewrite K1. reflexivity. }
  { exact I. }
  { cbn. lra. }
  { intros _. change (leaf_of (e_leaf E1)) with (leafE E1). rewrite L1. discriminate. }
  destruct (D eq_refl) as (t & Et). destruct (O (fun _ _ => True) (Ok t)) as (t' & Z & St & _); [rewrite Et; constructor|]. assert (t' = t) by congruence. subst t'.
  change (num_samples a) with 1 in St. rewrite C1, F1 in St.
  assert (EM: mix_clusters 2 [1 / 2; 1 / 2]%R 3 None true = (Ret [0] : M nat (list nat))).
  { unfold mix_clusters. f_equal. f_equal. unfold nargmax. cbn. destruct (Rlt_dec (1 / 2) (1 / 2)); [lra|reflexivity]. }
  destruct (stack_ok (flat_map unstack [t]) [1; 5]) as (all & Ea & Sa & _).
  { cbn [flat_map]. unfold unstack. rewrite St. discriminate. }
  { cbn [flat_map]. rewrite app_nil_r. unfold unstack. intros u Hu. apply in_map_iff in Hu as (j & <- & _). cbn. rewrite St. reflexivity. }
  assert (L: length (flat_map unstack [t]) = 1) by (cbn [flat_map]; rewrite app_nil_r; unfold unstack; rewrite map_length, seq_length, St; reflexivity).
  rewrite L in Sa. destruct (permuted_ok [0] all 1 [1; 5] eq_refl Sa) as (y & Ey & Sy & _).
  { intros j Hj. destruct j; [cbn; lia|lia]. }
  exists (VInt 2), ex_bu_g, [ex_o third; ex_o quarter], [E1; E2], [1 / 2; 1 / 2]%R, (fun _ _ => []), y.
  split; [exact HM|]. split; [reflexivity|]. split; [|exact Sy].
  unfold mix_sample. cbn [m_n m_per m_ev m_class m_mpe m_mpel m_tsum m_ms is_none orb assert lift mbind]. change (length [E1; E2]) with 2. rewrite EM. cbn [mbind].
  unfold mix_sample_free. cbn [separate add_idx map draws component nth_error lift mbind length]. fold a. rewrite Et. cbn [tag mbind].
  unfold cat_rows. rewrite Ea. cbn [bind permutation_of length seq combine sort_pairs insert_pair map snd]. rewrite Ey. reflexivity.
Qed.
Print Assumptions C32_mpe_refuted.
(** Row 0 misses feature 2, row 1 misses features 0 and 4; row 0 is in cluster 1 and row 1 in cluster 0. *)
Definition holes (n f : nat) : option nat := match n, f with 0, 2 | 1, 0 | 1, 4 => None | _, _ => Some ((n + f) mod 2) end.
Example C32_ex : exists nc g os (Es : list (einet nat)), mixture_of nc g os Es /\ length Es = 2 /\
  (forall E, In E Es -> evidence E 2 (table 2 holes) None /\ lf_ctx (leafE E) = true) /\ clusters_ok Es 2 [1; 0] /\
  (exists r, outcome own_value (mix_sample Es [1 / 2; 1 / 2]%R (fun _ _ => [1; 0]) (mkMArgs (Some 4) None CNone None false false 1 None)) r) /\
  forall r, outcome own_value (mix_sample Es [1 / 2; 1 / 2]%R (fun _ _ => [1; 0]) (mkMArgs None None CNone (Some (table 2 holes)) false false 1 None)) r ->
  exists t, r = Ok t /\ entry t 0 0 0 = Some 0 /\ entry t 0 0 2 = Some 1 /\ entry t 1 0 4 = Some 0.
Proof.
  destruct ex_mixture as (E1 & E2 & HM & L1 & L2). exists (VInt 2), ex_bu_g, [ex_o third; ex_o quarter], [E1; E2].
  split; [exact HM|]. split; [reflexivity|]. destruct (mixture_components _ _ _ _ HM) as (_ & _ & HA).
  destruct (HA E1 (or_introl eq_refl)) as (o1 & A1). destruct (HA E2 (or_intror (or_introl eq_refl))) as (o2 & A2).
  destruct (ex_dims o1 E1 A1) as (F1 & C1 & K1).
  assert (X1: lf_ctx (leafE E1) = true) by (rewrite L1; reflexivity).
  assert (Hlt: forall n f u, holes n f = Some u -> u < 2).
  { assert (Am: forall m u, Some (m mod 2) = Some u -> u < 2) by (intros m u H; assert (u = m mod 2) as -> by congruence; apply Nat.mod_upper_bound; lia).
    intros n f u. unfold holes. destruct n as [|[|n]], f as [|[|[|[|[|f]]]]]; try discriminate; apply Am. }
  assert (He: forall E, In E [E1; E2] -> evidence E 2 (table 2 holes) None /\ lf_ctx (leafE E) = true).
  { intros E [<-|[<-|[]]]; (split; [split; [eapply table_batch; eauto|exact I]|]); [rewrite L1|rewrite L2]; reflexivity. }
  assert (Hc: clusters_ok [E1; E2] 2 [1; 0]) by (split; [reflexivity|intros c [<-|[<-|[]]]; cbn; lia]).
  split; [exact He|]. split; [exact Hc|]. split.
  { destruct (sample_exists _ _ E1 4 0 A1 X1 K1 ltac:(lia)) as (t0 & O0).
    unfold mix_sample. cbn [m_n m_per m_ev m_class m_mpe m_mpel m_tsum m_ms is_none orb assert lift mbind].
    match goal with |- exists r, outcome _ (mbind _ ?f) r => assert (B: exists r, outcome own_value (f [0; 0; 0; 0]) r) end.
    { cbn beta. unfold mix_sample_free. cbn [separate add_idx Nat.eqb app map draws component nth_error lift mbind length].
      match goal with |- exists r, outcome _ (mbind _ ?f) r => assert (B: exists r, outcome own_value (f [t0]) r) end.
      { match goal with |- exists r, outcome _ (lift ?x) r => destruct x; cbn [lift]; eexists; constructor end. }
      destruct B as (r & B). exists r. eapply outcome_bind_intro; [|exact B].
      eapply outcome_bind_intro; [apply tag_outcome; exact O0|]. cbn [mbind]. constructor. }
    destruct B as (r & B). exists r. eapply outcome_bind_intro; [|exact B]. unfold mix_clusters. cbn [repeat draws map mbind].
    apply out_cat with (i := 0); [cbn; lia|]. apply out_cat with (i := 0); [cbn; lia|]. apply out_cat with (i := 0); [cbn; lia|]. apply out_cat with (i := 0); [cbn; lia|]. constructor. }
  intros r Ho. destruct (C32_evidence nat (VInt 2) ex_bu_g [ex_o third; ex_o quarter] [E1; E2] [1 / 2; 1 / 2]%R (fun _ _ => [1; 0]) (table 2 holes) None 2 None None CNone false false 1%R own_value r)
    as (t & -> & _ & Ht); auto; try lra; try discriminate; try (cbn; lia).
  exists t. split; auto. split; [exact (Ht 0 0 0 ltac:(lia) ltac:(cbn; lia) ltac:(cbn; lia))|]. split.
  - destruct (Ht 0 0 2 ltac:(lia) ltac:(cbn; lia) ltac:(cbn; lia)) as (E & w & _ & Hw & l & rr & _ & _ & Hs). cbn in Hs. subst w. exact Hw.
  - destruct (Ht 1 0 4 ltac:(lia) ltac:(cbn; lia) ltac:(cbn; lia)) as (E & w & _ & Hw & l & rr & _ & _ & Hs). cbn in Hs. subst w. exact Hw.
Qed.
