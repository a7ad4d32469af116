(** C72: mpe completes every row on its own, in a network and in a mixture. *)
From Coq Require Import List Arith Lia Bool ZArith Reals Lra Permutation.
Import ListNotations.
From Verif Require Import Base RSum Num Tensor Prob Layers Circuit Net RefFwd RefSample RefLaw Leaf Perm RefLeaf RefLeafS TypeChecks Einet RefNet RefEinet RefEinetS RefMpe Build RefBuild Spec RefSpec RefSpecS RefPack RefCluster Mixture RefMixture RefMixLaw RefRows PropMix Ex.
Local Open Scope R_scope.
Local Arguments Nat.div : simpl never.
Local Arguments Nat.modulo : simpl never.
Local Arguments Nat.sub : simpl never.
Local Arguments Nat.mul : simpl never.
Local Arguments Nat.add : simpl never.
Local Open Scope nat_scope.

(** * Vocabulary *)
(** Row [n] of [t] is row [n'] of [t']. *)
Definition equal_rows {V} (C F : nat) (t : tensor (option V)) (n : nat) (t' : tensor (option V)) (n' : nat) : Prop :=
  forall c f, c < C -> f < F -> entry t n c f = entry t' n' c f.
(** The first of the largest weights. *)
Definition heaviest (ws : list R) (c : nat) : Prop :=
  c < length ws /\ (forall j, j < length ws -> (nth j ws 0 <= nth c ws 0)%R) /\ forall j, j < c -> (nth j ws 0 < nth c ws 0)%R.

(** * A network *)
(** The completion of a row depends on what is observed in that row only: not on the other rows, the number
    of rows, the layout of the batch or whether values are marked missing by NaN or by marginalized_scopes. *)
Theorem C72_rows : forall V g o (E : einet V) N N' e e' ms ms' n n',
  accepted g o E -> lf_ctx (leafE E) = true -> lf_mode (leafE E) <> None -> evidence E N e ms -> evidence E N' e' ms' -> n < N -> n' < N' ->
  (forall c f, c < e_C E -> f < e_F E -> observed e ms n c f = observed e' ms' n' c f) ->
  exists t t', mpe E (Some e) ms = Ret t /\ mpe E (Some e') ms' = Ret t' /\ shape t = shape e /\ shape t' = shape e' /\
    equal_rows (e_C E) (e_F E) t n t' n'.
Proof.
  intros V g o E N N' e e' ms ms' n n' HA Hctx Hm He He' Hn Hn' Ho. pose proof (accepted_ok g o E HA) as HE.
  set (a := mkArgs None CNone (Some e) true false 1%R ms). set (a' := mkArgs None CNone (Some e') true false 1%R ms').
  assert (EN: num_samples a = N) by (cbn; apply (batch_size E); apply He). assert (EN': num_samples a' = N') by (cbn; apply (batch_size E); apply He').
  apply (evidence_same N N' n n' Hn Hn' E HE a a' e e'); auto.
  - unfold args_same. do 4 (split; auto). split; [reflexivity|]. split; [cbn; lra|]. split; [exact I|]. split; exact I.
  - unfold check_args. cbn. destruct (e_K E =? 1); reflexivity.
  - unfold check_args. cbn. destruct (e_K E =? 1); reflexivity.
  - apply evidence_input; auto.
  - apply evidence_input; auto.
  - intros c f Hc Hf. cbn [a a' a_ms]. rewrite <- !observed_row. auto.
Qed.
Print Assumptions C72_rows.
(** A row in a batch is completed as it is alone. *)
Theorem C72_alone : forall V g o (E : einet V) N e ms n,
  accepted g o E -> lf_ctx (leafE E) = true -> lf_mode (leafE E) <> None -> evidence E N e ms -> n < N ->
  exists t t', mpe E (Some e) ms = Ret t /\ mpe E (Some (only_row e n)) ms = Ret t' /\ equal_rows (e_C E) (e_F E) t n t' 0.
Proof.
  intros V g o E N e ms n HA Hctx Hm He Hn.
  destruct (C72_rows V g o E N 1 e (only_row e n) ms ms n 0 HA Hctx Hm He (only_row_evidence g E N e ms n He Hn) Hn) as (t & t' & H1 & H2 & _ & _ & H3); [lia| |eauto].
  intros c f _ _. unfold observed. rewrite (only_row_entry E N) by apply He. reflexivity.
Qed.
Print Assumptions C72_alone.

(** Without evidence: sample(num_samples=N, class_index=..., is_mpe=True) gives N copies of one row; with a list of
    classes row n is the row of class number n. *)
Theorem C72_copies : forall V g o (E : einet V) N N' cl mpel mpel' T ms ms' n n',
  accepted g o E -> lf_ctx (leafE E) = true -> lf_mode (leafE E) <> None -> class_fits g cl -> T <> 0%R -> n < N -> n' < N' ->
  exists t t', sample E (mkArgs (Some N) cl None true mpel T ms) = Ret t /\ sample E (mkArgs (Some N') cl None true mpel' T ms') = Ret t' /\
    shape t = [N; e_C E; e_F E] /\ equal_rows (e_C E) (e_F E) t n t' n'.
Proof.
  intros V g o E N N' cl mpel mpel' T ms ms' n n' HA Hctx Hm Hcl HT Hn Hn'. pose proof (accepted_ok g o E HA) as HE. pose proof (accepted_K g o E HA) as EK.
  assert (CK: forall k m x, class_ok E (mkArgs (V := V) (Some k) cl None true m T x) /\ check_args E (mkArgs (V := V) (Some k) cl None true m T x) = Ok tt).
  { intros k m x. unfold class_ok, check_args. cbn [a_class a_ev a_n]. unfold class_fits in Hcl. rewrite EK. destruct cl as [|y|l]; [|destruct Hcl|destruct Hcl].
    - split; auto. cbn. destruct (nval (g_K g) =? 1); reflexivity.
    - split; auto. cbn. destruct (Nat.eqb_spec (nval (g_K g)) 1); [lia|reflexivity]. }
  destruct (free_same N N' n n' Hn Hn' E HE (mkArgs (Some N) cl None true mpel T ms) (mkArgs (Some N') cl None true mpel' T ms')) as (t & t' & H1 & H2 & H3 & _ & H4); auto; try apply CK.
  - unfold args_same. do 5 (split; [reflexivity|]). split; [exact HT|]. split; [apply CK|]. split; [apply CK|]. unfold class_same. cbn [a_class]. destruct cl; auto. destruct Hcl.
  - eauto 8.
Qed.
Print Assumptions C72_copies.
Theorem C72_class_list : forall V g o (E : einet V) cs mpel mpel' T ms ms' n,
  accepted g o E -> lf_ctx (leafE E) = true -> lf_mode (leafE E) <> None -> 1 < e_K E -> (forall c, In c cs -> c < e_K E) -> T <> 0%R -> n < length cs ->
  exists t t', sample E (mkArgs (Some (length cs)) (CList cs) None true mpel T ms) = Ret t /\
    sample E (mkArgs None (CInt (nth n cs 0)) None true mpel' T ms') = Ret t' /\ shape t = [length cs; e_C E; e_F E] /\ equal_rows (e_C E) (e_F E) t n t' 0.
Proof.
  intros V g o E cs mpel mpel' T ms ms' n HA Hctx Hm HK Hcs HT Hn. pose proof (accepted_ok g o E HA) as HE.
  set (a := mkArgs (V := V) (Some (length cs)) (CList cs) None true mpel T ms). set (a' := mkArgs (V := V) None (CInt (nth n cs 0)) None true mpel' T ms').
  assert (HK1: (e_K E =? 1) = false) by (apply Nat.eqb_neq; lia).
  destruct (free_same (length cs) 1 n 0 Hn ltac:(lia) E HE a a') as (t & t' & H1 & H2 & H3 & _ & H4); auto.
  - unfold args_same. do 5 (split; [reflexivity|]). split; [exact HT|]. split; [split; [exact HK|]; split; [reflexivity|exact Hcs]|]. split; [|reflexivity]. split; [exact HK|]. apply Hcs, nth_In. auto.
  - unfold check_args. cbn. rewrite HK1. reflexivity.
  - unfold check_args. cbn. rewrite HK1. reflexivity.
  - eauto 8.
Qed.
Print Assumptions C72_class_list.

(** * A mixture *)
Lemma draws_ret {V A B} (F : B -> M V A) (P : B -> A -> Prop) l : (forall b, In b l -> exists x, F b = Ret x /\ P b x) ->
  exists xs, draws (map F l) = Ret xs /\ Forall2 P l xs.
Proof.
  induction l as [|b l IH]; intros H; cbn [map draws]; [eauto|]. destruct (H b (or_introl eq_refl)) as (x & Ex & Px).
  destruct (IH (fun b' H' => H b' (or_intror H'))) as (xs & Exs & Pxs). rewrite Ex, Exs. cbn [mbind]. exists (x :: xs). auto.
Qed.
(** Mixture.mpe(evidence): every row is completed by the component of its cluster, as that component completes it alone. *)
Theorem C72_mixture : forall V nc g os (Es : list (einet V)) ws predict e ms N,
  mixture_of nc g os Es -> (forall E, In E Es -> evidence E N e ms /\ lf_ctx (leafE E) = true /\ lf_mode (leafE E) <> None) ->
  0 < N -> clusters_ok Es N (predict e ms) ->
  exists t, mix_mpe Es ws predict (Some e) ms = Ret t /\ shape t = shape e /\
  forall n, n < N -> exists E tE, nth_error Es (nth n (predict e ms) 0) = Some E /\
    mpe E (Some (only_row e n)) ms = Ret tE /\ equal_rows (nval (g_C g)) (nval (g_F g)) t n tE 0.
Proof.
  intros V nc g os Es ws predict e ms N HM HE HN [HL Hc]. destruct (mixture_components _ _ _ _ HM) as (_ & Hpos & HA).
  unfold mix_mpe, mix_sample. cbn [m_n m_per m_ev m_class m_mpe m_mpel m_tsum m_ms is_none orb assert lift mbind mix_clusters].
  unfold mix_sample_given. set (cs := predict e ms) in *. set (groups := separate 0 cs []) in *.
  assert (Hne: Es <> []) by (intros Z; rewrite Z in Hpos; cbn in Hpos; lia).
  assert (HW: wshape (shape e) N (nval (g_C g)) (nval (g_F g))).
  { destruct Es as [|E0 Es'] eqn:EE; [contradiction|]. destruct (HA E0 (or_introl eq_refl)) as (o & A).
    destruct (accepted_CF g o E0 A) as [<- <-]. apply (HE E0). left. auto. }
  set (s := tl (shape e)). assert (Es': shape e = N :: s) by (apply (wshape_sub _ _ _ _ 1 HW); lia).
  set (Q := fun c i (rr : tensor (option V)) => shape rr = s /\ exists E tE, nth_error Es c = Some E /\ mpe E (Some (only_row e i)) ms = Ret tE /\
    forall ch f, ch < nval (g_C g) -> f < nval (g_F g) -> get rr (tl (ix (shape e) i ch f)) = entry tE 0 ch f).
  match goal with |- context [draws (map ?f groups)] => set (D := f) end.
  destruct (draws_ret D (fun gr part => map fst part = snd gr /\ forall i r, In (i, r) part -> Q (fst gr) i r) groups) as (parts & Ep & HP).
  { intros [c idxs] Hin. destruct (group_members Es cs N c idxs HL Hc Hin) as (Hni & Hc' & Hj).
    assert (Hlt: forall j, In j idxs -> j < N) by (intros; apply Hj; auto).
    destruct (component_ok Es c Hc') as (E & Ec & En & Ein). destruct (HA E Ein) as (o & A). destruct (HE E Ein) as ([Bt Hms] & Hctx & Hmd).
    destruct (stack_ok (map (trow e) idxs) (tl (shape e))) as (t & Et & _).
    { destruct idxs; [contradiction|discriminate]. }
    { intros u Hu. apply in_map_iff in Hu as (j & <- & _). reflexivity. }
    destruct (sub_batch E N e idxs t Bt Hni Hlt Et) as (St & Bt' & ENt).
    assert (Hk: 0 < length idxs) by (destruct idxs; [contradiction|cbn; lia]).
    assert (Hev: evidence E (length idxs) t ms).
    { split; auto. destruct ms as [S|]; auto. destruct Hms as [H1 H2]. split; auto. intros n c0 f Hn Hc0 Hf Hns. rewrite ENt by auto. apply H2; auto. apply Hlt, nth_In. auto. }
    destruct (accepted_CF g o E A) as [EC EF].
    assert (RW: forall p, p < length idxs -> exists u tE, mpe E (Some t) ms = Ret u /\ shape u = shape t /\ mpe E (Some (only_row e (nth p idxs 0))) ms = Ret tE /\
       equal_rows (e_C E) (e_F E) u p tE 0).
    { intros p Hp. assert (Hi: nth p idxs 0 < N) by (apply Hlt, nth_In; auto).
      destruct (C72_rows V g o E (length idxs) 1 t (only_row e (nth p idxs 0)) ms ms p 0 A Hctx Hmd Hev (only_row_evidence g E N e ms _ (conj Bt Hms) Hi) Hp) as (u & tE & H1 & H2 & H3 & _ & H4); [lia| |eauto 8].
      intros ch f _ _. unfold observed. rewrite (only_row_entry E N), ENt by auto. reflexivity. }
    destruct (RW 0 Hk) as (u & _ & Eu & Su & _). rewrite St in Su.
    assert (LU: length idxs = length (unstack u)) by (unfold unstack; rewrite map_length, seq_length, Su; reflexivity).
    exists (combine idxs (unstack u)). split.
    - unfold D. rewrite Et. cbn [lift mbind]. rewrite Ec. cbn [lift mbind]. unfold mpe in Eu. rewrite Eu. reflexivity.
    - cbn [fst snd]. split; [apply map_fst_combine; auto|]. intros i rr Hir.
      destruct (in_combine_nth idxs (unstack u) i rr 0 (trow u 0) LU Hir) as (p & Hp & E1 & E2).
      unfold unstack in E2. rewrite map_nth in E2. rewrite seq_nth in E2 by (rewrite Su; auto). cbn [plus] in E2. subst rr.
      destruct (RW p Hp) as (u' & tE & Eu' & _ & EtE & HR). assert (u' = u) by congruence. subst u'. rewrite E1 in EtE.
      unfold Q. cbn [trow shape get]. rewrite Su. cbn [tl]. split; auto. exists E, tE. split; auto. split; auto. intros ch f Hch Hf.
      rewrite <- (HR ch f) by lia. unfold entry. rewrite Su. destruct (ix_sub _ _ _ _ i ch f HW) as (idx & X1 & X2). rewrite X1, X2. reflexivity. }
  rewrite Ep. cbn [mbind].
  destruct (collected groups parts Q HP) as [Hfst HQ].
  destruct (reassemble (concat parts) N s) as (y & Ey & Sy & Gy); auto.
  { rewrite Hfst. unfold groups. rewrite <- HL. apply groups_flat. }
  { intros i rr Hi. destruct (HQ i rr Hi) as (c & idxs & _ & _ & Hs & _). auto. }
  cbv zeta. rewrite Ey. cbn [lift]. exists y. split; auto. split; [congruence|]. intros n Hn. destruct (Gy n Hn) as (rr & Hrr & Hg).
  destruct (HQ n rr Hrr) as (c & idxs & Hgr & Hi & _ & E & tE & En & Em & Hv).
  destruct (group_members Es cs N c idxs HL Hc Hgr) as (_ & _ & Hj). destruct (Hj n Hi) as [_ Ecn]. rewrite Ecn. exists E, tE. split; auto. split; auto.
  intros ch f Hch Hf. rewrite <- (Hv ch f Hch Hf). unfold entry. replace (shape y) with (shape e) by congruence. destruct (ix_sub _ _ _ _ n ch f HW) as (idx & X1 & _). rewrite X1. cbn [tl]. apply Hg.
Qed.
Print Assumptions C72_mixture.
(** Mixture.mpe(): the row that the heaviest component gives. *)
Theorem C72_mixture_free : forall V nc g os (Es : list (einet V)) ws predict ms,
  mixture_of nc g os Es -> (forall E, In E Es -> lf_ctx (leafE E) = true /\ lf_mode (leafE E) <> None) -> 0 < length ws <= length Es ->
  exists t c E tE, mix_mpe Es ws predict None ms = Ret t /\ shape t = [1; nval (g_C g); nval (g_F g)] /\ heaviest ws c /\ nth_error Es c = Some E /\
    mpe E None ms = Ret tE /\ equal_rows (nval (g_C g)) (nval (g_F g)) t 0 tE 0.
Proof.
  intros V nc g os Es ws predict ms HM HE Hw. destruct (mixture_components _ _ _ _ HM) as (_ & Hpos & HA).
  unfold mix_mpe, mix_sample. cbn [m_n m_per m_ev m_class m_mpe m_mpel m_tsum m_ms is_none orb assert lift mbind mix_clusters].
  set (c := nargmax (length ws) (fun i => Fin (nth i ws 0%R))).
  assert (Hh: heaviest ws c).
  { split; [apply nargmax_lt; lia|]. split.
    - intros j Hj. apply (nargmax_max (length ws) _ (fun i => nth i ws 0%R)); auto; lia.
    - intros j Hj. apply (nargmax_first (length ws) _ (fun i => nth i ws 0%R)); auto; lia. }
  destruct (component_ok Es c) as (E & Ec & En & Ein); [destruct Hh; lia|]. destruct (HA E Ein) as (o & A). destruct (HE E Ein) as (Hctx & Hmd).
  destruct (accepted_CF g o E A) as [EC EF]. pose proof (accepted_ok g o E A) as HEo.
  destruct (free_same 1 1 0 0 ltac:(lia) ltac:(lia) E HEo (mkArgs (Some 1) CNone None true false 1%R ms) (mkArgs None CNone None true false 1%R ms)) as (u & tE & E1 & E2 & S1 & _ & HR); auto.
  - unfold args_same. do 5 (split; [reflexivity|]). split; [cbn; lra|]. split; [exact I|]. split; exact I.
  - unfold check_args. cbn. destruct (e_K E =? 1); reflexivity.
  - unfold check_args. cbn. destruct (e_K E =? 1); reflexivity.
  - unfold mix_sample_free. cbn [separate add_idx map draws length]. rewrite Ec. cbn [lift mbind]. rewrite E1. cbn [tag mbind].
    destruct (stack_ok (flat_map unstack [u]) [e_C E; e_F E]) as (all & Ea & Sa & Ga).
    { cbn [flat_map]. unfold unstack. rewrite S1. discriminate. }
    { cbn [flat_map]. rewrite app_nil_r. unfold unstack. intros x Hx. apply in_map_iff in Hx as (j & <- & _). cbn. rewrite S1. reflexivity. }
    assert (L: flat_map unstack [u] = [trow u 0]) by (cbn [flat_map]; rewrite app_nil_r; unfold unstack; rewrite S1; reflexivity).
    rewrite L in Sa, Ga. cbn [length] in Sa. destruct (permuted_ok [0] all 1 [e_C E; e_F E] eq_refl Sa) as (y & Ey & Sy & Gy).
    { intros j Hj. destruct j; [cbn; lia|lia]. }
    unfold cat_rows. rewrite Ea. cbn [bind permutation_of length seq combine sort_pairs insert_pair map snd]. rewrite Ey. cbn [lift].
    exists y, c, E, tE. split; auto. split; [congruence|]. split; auto. split; auto. split; [exact E2|].
    intros ch f Hch Hf. rewrite <- (HR ch f) by lia. unfold entry. rewrite Sy, S1. cbn [ix].
    rewrite Gy by lia. cbn [nth]. rewrite (Ga 0 [ch; f] (trow u 0)) by (cbn; lia). reflexivity.
Qed.
Print Assumptions C72_mixture_free.

(** * Example *)
(** The mixture of two networks over five binary features: row 0 misses feature 2 and belongs to the second component,
    row 1 misses features 0 and 4 and belongs to the first. *)
Example C72_ex : exists nc g os (E1 E2 : einet nat), mixture_of nc g os [E1; E2] /\
  (forall E, In E [E1; E2] -> evidence E 2 (table 2 holes) None /\ lf_ctx (leafE E) = true /\ lf_mode (leafE E) <> None) /\
  clusters_ok [E1; E2] 2 [1; 0] /\
  exists t t1 t2, mix_mpe [E1; E2] [1 / 4; 3 / 4]%R (fun _ _ => [1; 0]) (Some (table 2 holes)) None = Ret t /\
    mpe E2 (Some (only_row (table 2 holes) 0)) None = Ret t2 /\ equal_rows 1 5 t 0 t2 0 /\
    mpe E1 (Some (only_row (table 2 holes) 1)) None = Ret t1 /\ equal_rows 1 5 t 1 t1 0 /\
  exists t' t2', mix_mpe [E1; E2] [1 / 4; 3 / 4]%R (fun _ _ => []) None None = Ret t' /\ mpe E2 None None = Ret t2' /\ equal_rows 1 5 t' 0 t2' 0.
Proof.
  destruct ex_mixture as (E1 & E2 & HM & L1 & L2). exists (VInt 2), ex_bu_g, [ex_o third; ex_o quarter], E1, E2.
  split; [exact HM|]. destruct (mixture_components _ _ _ _ HM) as (_ & _ & HA).
  destruct (HA E1 (or_introl eq_refl)) as (o1 & A1). destruct (HA E2 (or_intror (or_introl eq_refl))) as (o2 & A2).
  assert (Hlt: forall n f u, holes n f = Some u -> u < 2).
  { assert (Am: forall m u, Some (m mod 2) = Some u -> u < 2) by (intros m u H; assert (u = m mod 2) as -> by congruence; apply Nat.mod_upper_bound; lia).
    intros n f u. unfold holes. destruct n as [|[|n]], f as [|[|[|[|[|f]]]]]; try discriminate; apply Am. }
  assert (He: forall E, In E [E1; E2] -> evidence E 2 (table 2 holes) None /\ lf_ctx (leafE E) = true /\ lf_mode (leafE E) <> None).
  { intros E [<-|[<-|[]]]; (split; [split; [eapply table_batch; eauto|exact I]|]); [rewrite L1|rewrite L2]; (split; [reflexivity|discriminate]). }
  split; [exact He|]. assert (Hcl: clusters_ok [E1; E2] 2 [1; 0]) by (split; [reflexivity|intros c [<-|[<-|[]]]; cbn; lia]). split; [exact Hcl|].
  destruct (C72_mixture nat _ _ _ _ [1 / 4; 3 / 4]%R (fun _ _ => [1; 0]) (table 2 holes) None 2 HM He ltac:(lia) Hcl) as (t & Et & _ & Ht).
  destruct (Ht 0 ltac:(lia)) as (X & t2 & X1 & X2 & X3). destruct (Ht 1 ltac:(lia)) as (Y & t1 & Y1 & Y2 & Y3). cbn [nth nth_error] in X1, Y1.
  assert (X = E2) by congruence. assert (Y = E1) by congruence. subst X Y.
  destruct (C72_mixture_free nat _ _ _ _ [1 / 4; 3 / 4]%R (fun _ _ => []) None HM (fun E H => proj2 (He E H)) ltac:(cbn; lia)) as (t' & c & Z & tE & Z1 & _ & (Zc & Zm & _) & Z2 & Z3 & Z4).
  assert (c = 1). { destruct c as [|[|c]]; [|reflexivity|cbn in Zc; lia]. specialize (Zm 1 ltac:(cbn; lia)). cbn in Zm. lra. } subst c. cbn [nth_error] in Z2. assert (Z = E2) by congruence. subst Z.
  exists t, t1, t2. do 5 (split; auto). exists t', tE. auto.
Qed.
