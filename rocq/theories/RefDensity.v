(** Iterated integrals of the network value. *)
From Coq Require Import List Arith Lia Bool Reals Lra.
Import ListNotations.
From Verif Require Import Base RSum Num Tensor Prob Layers Circuit Net RefFwd RefSample RefLaw Leaf Perm RefLeaf RefLeafS Einet RefNet RefEinet RefEinetS Build RefBuild Spec RefSpec RefSpecS Density.
Local Open Scope R_scope.
Local Arguments Nat.div : simpl never.
Local Arguments Nat.modulo : simpl never.
Local Arguments Nat.sub : simpl never.
Local Arguments Nat.mul : simpl never.
Local Arguments Nat.add : simpl never.

Section Circuit.
Variable G : cnet.
Hypothesis Hw : cnet_wf G.
Context {V : Type}.
Variable Int : nat -> nat -> (V -> R) -> R -> Prop.
Hypothesis HI : forall c f, (c < nC G)%nat -> (f < nF G)%nat -> linear_integral (Int c f).
(** Leaf values [w] at a present entry and their integrals [J] at a missing one. *)
Variable w : nat -> nat -> nat -> nat -> V -> R.
Variable J : leaves.
Hypothesis Wpos : forall c f l r v, (c < nC G)%nat -> (f < nF G)%nat -> (l < nL G)%nat -> (r < nR G)%nat -> 0 <= w c f l r v.
Hypothesis Jpos : forall c f l r, (c < nC G)%nat -> (f < nF G)%nat -> (l < nL G)%nat -> (r < nR G)%nat -> 0 <= J c f l r.

Definition wval (z : partial V) : leaves := fun c f l r => match z c f with Some v => w c f l r v | None => J c f l r end.
Lemma wval_nonneg z c f l r : (c < nC G)%nat -> (f < nF G)%nat -> (l < nL G)%nat -> (r < nR G)%nat -> 0 <= wval z c f l r.
Proof. intros. unfold wval. destruct (z c f); auto. Qed.

Lemma Int_rsum c f n (h : nat -> V -> R) (m : nat -> R) : linear_integral (Int c f) -> (0 < n)%nat ->
  (forall i, (i < n)%nat -> Int c f (h i) (m i)) -> Int c f (fun v => rsum n (fun i => h i v)) (rsum n m).
Proof.
  intros [Iext Iplus _ _ _]. revert h m. induction n; intros h m Hn Hi; [lia|]. destruct n.
  - apply Iext with (f := h 0%nat); [intros; rewrite rsum_S, rsum_0; lra|].
    rewrite rsum_S, rsum_0, Rplus_0_l. apply Hi; lia.
  - rewrite rsum_S. apply Iext with (f := fun v => rsum (S n) (fun i => h i v) + h (S n) v).
    + intros. rewrite (rsum_S (S n)). auto.
    + apply Iplus; [apply IHn; auto; lia|apply Hi; lia].
Qed.

Lemma nL_pos y : (y < nCls G)%nat -> (0 < nC G)%nat -> (0 < nF G)%nat -> (0 < nL G)%nat.
Proof.
  intros Hy Hc Hf. destruct (Nat.eq_dec (nL G) 0) as [HL|HL]; [|lia]. exfalso.
  destruct (neteval_linear G (fun _ _ _ _ => 1) 0 0 y Hw Hy Hc Hf) as (al & _ & Hal); [intros; lra|].
  pose proof (neteval_one G (updq (fun _ _ _ _ => 1) 0 0 (fun _ _ => 1)) y Hw Hy) as O.
  rewrite Hal, HL in O. rewrite (rsum_ext _ _ (fun _ => 0)), rsum_zero in O by (intros; apply rsum_0).
  assert (0 = 1); [|lra]. apply O. intros c f l r _ _ Hl _. rewrite HL in Hl. lia.
Qed.

Lemma int_step z c0 f0 y : (y < nCls G)%nat -> (c0 < nC G)%nat -> (f0 < nF G)%nat -> z c0 f0 = None ->
  (forall l r, (l < nL G)%nat -> (r < nR G)%nat -> Int c0 f0 (w c0 f0 l r) (J c0 f0 l r)) ->
  Int c0 f0 (fun v => neteval G (wval (fill z c0 f0 v)) y) (neteval G (wval z) y).
Proof.
  intros Hy Hc Hf Hz HJ. pose proof (HI c0 f0 Hc Hf) as L. pose proof (li_ext _ L) as Iext. pose proof (li_scal _ L) as Iscal.
  destruct (neteval_linear G (wval z) c0 f0 y Hw Hy Hc Hf) as (al & _ & Hal).
  { intros. apply wval_nonneg; auto. }
  apply Iext with (f := fun v => rsum (nR G) (fun r => rsum (nL G) (fun l => al r l * w c0 f0 l r v))).
  { intros v. rewrite <- (Hal (fun l r => w c0 f0 l r v)). apply neteval_ext; auto.
    intros c f l r _ _ _ _. unfold updq, wval, fill. destruct (Nat.eqb_spec c c0), (Nat.eqb_spec f f0); cbn [andb]; subst; auto. }
  replace (neteval G (wval z) y) with (rsum (nR G) (fun r => rsum (nL G) (fun l => al r l * J c0 f0 l r))).
  2:{ rewrite <- (Hal (fun l r => J c0 f0 l r)). apply neteval_ext; auto.
      intros c f l r _ _ _ _. unfold updq, wval. destruct (Nat.eqb_spec c c0), (Nat.eqb_spec f f0); cbn [andb]; subst; auto. rewrite Hz. auto. }
  pose proof (nR_pos G y Hw Hy) as HR. pose proof (nL_pos y Hy ltac:(lia) ltac:(lia)) as HL.
  apply (Int_rsum c0 f0 (nR G) (fun r v => rsum (nL G) (fun l => al r l * w c0 f0 l r v)) (fun r => rsum (nL G) (fun l => al r l * J c0 f0 l r))); auto.
  intros r Hr. apply (Int_rsum c0 f0 (nL G) (fun l v => al r l * w c0 f0 l r v) (fun l => al r l * J c0 f0 l r)); auto.
Qed.

Lemma net_integrates h y : (y < nCls G)%nat ->
  (forall z, (forall c f, (c < nC G)%nat -> (f < nF G)%nat -> z c f <> None) -> h z = neteval G (wval z) y) ->
  forall ps z, missing (nC G) (nF G) z ps ->
  (forall c f l r, In (c, f) ps -> (l < nL G)%nat -> (r < nR G)%nat -> Int c f (w c f l r) (J c f l r)) ->
  integrates Int h ps z (neteval G (wval z) y).
Proof.
  intros Hy Hh ps. induction ps as [|[c f] ps IH]; intros z [ND Hm] HJ.
  - rewrite <- Hh; [constructor|]. intros c f Hc Hf Hz. apply (proj2 (Hm c f)). auto.
  - destruct (proj1 (Hm c f) (or_introl eq_refl)) as (Hc & Hf & Hz). inversion ND as [|? ? Nin ND']; subst.
    apply int_cons with (g := fun v => neteval G (wval (fill z c f v)) y).
    + intros v. apply IH; [|intros; apply HJ; simpl; auto]. split; auto. intros c' f'. unfold fill.
      destruct (Nat.eqb_spec c' c), (Nat.eqb_spec f' f); cbn [andb]; subst.
      1:{ split; [intro; contradiction|intros (_ & _ & ?); discriminate]. }
      all: rewrite <- Hm; simpl; split; [auto|intros [E|]; [inversion E; congruence|auto]].
    + apply int_step; auto. intros l r Hl Hr. apply HJ; simpl; auto.
Qed.
End Circuit.

(** Factors on single entries come out. *)
Lemma neteval_scale1 G q c0 f0 k y : cnet_wf G -> (y < nCls G)%nat -> (c0 < nC G)%nat -> (f0 < nF G)%nat ->
  (forall c f l r, (c < nC G)%nat -> (f < nF G)%nat -> (l < nL G)%nat -> (r < nR G)%nat -> 0 <= q c f l r) ->
  neteval G (updq q c0 f0 (fun l r => k * q c0 f0 l r)) y = k * neteval G q y.
Proof.
  intros Hw Hy Hc Hf Hq. destruct (neteval_linear G q c0 f0 y Hw Hy Hc Hf Hq) as (al & _ & Hal). rewrite Hal.
  replace (neteval G q y) with (neteval G (updq q c0 f0 (fun l r => q c0 f0 l r)) y).
  - rewrite Hal, <- rsum_scal_l. apply rsum_ext. intros r _. rewrite <- rsum_scal_l. apply rsum_ext. intros l _. ring.
  - apply neteval_ext; auto. intros c f l r _ _ _ _. unfold updq. destruct (Nat.eqb_spec c c0), (Nat.eqb_spec f f0); cbn [andb]; subst; auto.
Qed.
Lemma neteval_scale G q (a : nat -> nat -> R) y : cnet_wf G -> (y < nCls G)%nat ->
  (forall c f l r, (c < nC G)%nat -> (f < nF G)%nat -> (l < nL G)%nat -> (r < nR G)%nat -> 0 <= q c f l r) ->
  (forall c f, 0 <= a c f) ->
  neteval G (fun c f l r => a c f * q c f l r) y = rprod (nC G) (fun c => rprod (nF G) (fun f => a c f)) * neteval G q y.
Proof.
  intros Hw Hy Hq Ha.
  (* multiply the first [m] channels, and the first [j] features of channel [m] *)
  set (Q := fun m j c f l r => (if (c <? m)%nat || ((c =? m)%nat && (f <? j)%nat) then a c f else 1) * q c f l r).
  assert (Qpos: forall m j c f l r, (c < nC G)%nat -> (f < nF G)%nat -> (l < nL G)%nat -> (r < nR G)%nat -> 0 <= Q m j c f l r).
  { intros m j c f l r Hc Hf Hl Hr. unfold Q. apply Rmult_le_pos; auto. destruct (_ || _); [auto|lra]. }
  assert (Sj: forall m j, (m < nC G)%nat -> (j <= nF G)%nat -> neteval G (Q m j) y = rprod j (fun f => a m f) * neteval G (Q m 0%nat) y).
  { intros m j Hm. induction j; intros Hj; [change (rprod 0 (fun f => a m f)) with 1; ring|].
    rewrite rprod_S. rewrite (Rmult_comm _ (a m j)), Rmult_assoc, <- IHj by lia.
    rewrite <- (neteval_scale1 G (Q m j) m j (a m j) y) by (auto; lia). apply neteval_ext; auto.
    intros c f l r _ _ _ _. unfold updq, Q. destruct (Nat.eqb_spec c m) as [->|]; cbn [andb].
    - destruct (Nat.eqb_spec f j) as [->|].
      + rewrite (proj2 (Nat.ltb_lt j (S j))), !Nat.ltb_irrefl by lia. rewrite Nat.eqb_refl. cbn [orb andb]. ring.
      + rewrite !Nat.ltb_irrefl, ?Nat.eqb_refl. cbn [orb andb]. destruct (Nat.ltb_spec f j), (Nat.ltb_spec f (S j)); try lia; auto.
    - reflexivity. }
  assert (Sm: forall m, (m <= nC G)%nat -> neteval G (Q m 0%nat) y = rprod m (fun c => rprod (nF G) (fun f => a c f)) * neteval G q y).
  { induction m; intros Hm.
    - change (rprod 0 _) with 1. rewrite Rmult_1_l. apply neteval_ext; auto. intros c f l r _ _ _ _. unfold Q.
      replace ((c <? 0)%nat || _) with false; [ring|]. symmetry. apply orb_false_iff. split; [apply Nat.ltb_ge; lia|].
      apply andb_false_iff. right. apply Nat.ltb_ge; lia.
    - rewrite rprod_S, (Rmult_comm (rprod m _)), Rmult_assoc, <- IHm by lia. rewrite <- Sj by lia. apply neteval_ext; auto.
      intros c f l r _ Hf _ _. unfold Q. f_equal.
      destruct (Nat.ltb_spec c (S m)), (Nat.ltb_spec c m), (Nat.eqb_spec c m), (Nat.eqb_spec c (S m)); cbn [orb andb]; try lia; auto.
      destruct (Nat.ltb_spec f (nF G)); [auto|lia]. }

  rewrite <- Sm by lia. apply neteval_ext; auto. intros c f l r Hc _ _ _. unfold Q. rewrite (proj2 (Nat.ltb_lt c (nC G)) Hc). reflexivity.
Qed.

(** Iterated integrals have at most one value. *)
Lemma integrates_unique {V} (Int : nat -> nat -> (V -> R) -> R -> Prop) h ps :
  (forall c f, In (c, f) ps -> linear_integral (Int c f)) ->
  forall z a b, integrates Int h ps z a -> integrates Int h ps z b -> a = b.
Proof.
  induction ps as [|[c f] ps IH]; intros HI z a b Ha Hb.
  - inversion Ha; inversion Hb; subst. auto.
  - inversion Ha as [|? ? ? ? ga ? A1 A2]; subst. inversion Hb as [|? ? ? ? gb ? B1 B2]; subst.
    pose proof (HI c f (or_introl eq_refl)) as L. apply (li_unique _ L gb); auto. apply (li_ext _ L ga); auto.
    intros v. apply (IH ltac:(intros; apply HI; right; auto) (fill z c f v)); auto.
Qed.
Lemma integrates_ext {V} (Int : nat -> nat -> (V -> R) -> R -> Prop) h h' ps : (forall z, h z = h' z) ->
  forall z a, integrates Int h ps z a -> integrates Int h' ps z a.
Proof.
  intros E. induction ps as [|[c f] ps IH]; intros z a H.
  - inversion H; subst. rewrite E. constructor.
  - inversion H as [|? ? ? ? g ? A1 A2]; subst. apply int_cons with (g := g); auto.
Qed.

Section Lik.
Context {V : Type}.
Variable E : einet V.
Hypothesis HE : einet_ok E.
Let lf := leafE E.
Let C := e_C E.
Let F := e_F E.
Variable Int : nat -> nat -> (V -> R) -> R -> Prop.
Hypothesis HD : density_leaf Int lf.

Lemma lfdims : lf_C lf = C /\ lf_F lf = F /\ lf_L lf = e_L E /\ lf_R lf = e_R E.
Proof. unfold lf, leafE. rewrite (eo_lC E HE), (eo_lF E HE), (eo_lL E HE), (eo_lR E HE). auto. Qed.
Lemma lin c f : (c < C)%nat -> (f < F)%nat -> linear_integral (Int c f).
Proof. destruct lfdims as (Ec & Ef & _). intros. apply (dn_linear _ _ HD); [rewrite Ec|rewrite Ef]; auto. Qed.
Lemma total c f l r : (c < C)%nat -> (f < F)%nat -> (l < e_L E)%nat -> (r < e_R E)%nat -> Int c f (dens lf c f l r) 1.
Proof. destruct lfdims as (Ec & Ef & El & Er). intros. apply (dn_total _ _ HD); [rewrite Ec|rewrite Ef|rewrite El|rewrite Er]; auto. Qed.
Lemma dens_pdf c f l r v : (c < C)%nat -> (f < F)%nat -> (l < e_L E)%nat -> (r < e_R E)%nat -> lf_supp lf v = true ->
  dens lf c f l r v = pdf lf c f l r v.
Proof.
  intros Hc Hf Hl Hr Hv. unfold dens, pdf. rewrite Hv. destruct lfdims as (Ec & Ef & El & Er).
  assert (P: isfin (lf_logp lf [c; f; l; r] v) = true).
  { pose proof (eo_leaf E HE) as Hl'. fold (leafE E) in Hl'. fold lf in Hl'. apply Hl'; rewrite ?Ec, ?Ef, ?El, ?Er; auto. }
  destruct (lf_logp lf [c; f; l; r] v); try discriminate. reflexivity.
Qed.
Lemma dens_nonneg c f l r v : 0 <= dens lf c f l r v.
Proof. unfold dens. destruct (lf_supp lf v); [|lra]. destruct (lf_logp lf _ v); cbn [pval]; try lra. left. apply exp_pos. Qed.

Lemma row_batch z : (forall c f v, (c < C)%nat -> (f < F)%nat -> z c f = Some v -> lf_supp lf v = true) -> batch E 1 (row_tensor C F z).
Proof. intros H. split; [right; left; reflexivity|]. intros n c f v Hn Hc Hf Hv. cbn in Hv. apply (H c f); auto. Qed.
Lemma lik_row z k : (k < e_K E)%nat -> (forall c f v, (c < C)%nat -> (f < F)%nat -> z c f = Some v -> lf_supp lf v = true) ->
  lik E (row_tensor C F z) None 0 k = neteval (fnet E) (lval (pdf lf) z) k.
Proof. intros Hk H. rewrite (lik_eval E HE 1) by (auto; apply batch_input, row_batch; auto). reflexivity. Qed.
(** A value outside the support makes the call fail. *)
Lemma lik_outside z k c f v : (c < C)%nat -> (f < F)%nat -> z c f = Some v -> lf_supp lf v = false ->
  lik E (row_tensor C F z) None 0 k = 0.
Proof.
  intros Hc Hf Hz Hv. unfold lik, forward, forward_full. destruct (prepare_ok E HE 1 (row_tensor C F z)) as (y & Ey & Sy & Gy).
  { right; left; reflexivity. }
  rewrite Ey. clear Ey. destruct y as [sy gy]. cbn [shape] in Sy. subst sy. cbn [bind]. unfold leaf_forward, base_forward, dist_forward. fold (leafE E). fold lf.
  set (x0 := tmap _ _). change (dim x0) with 3%nat. cbn [Nat.eqb]. set (x1 := unsq_end 2 x0).
  replace (forallb (fun idx => lf_supp lf (get x1 idx)) (all_idx (shape x1))) with false; [reflexivity|].
  symmetry. apply not_true_iff_false. rewrite forallb_forall. intros A. specialize (A [0; c; f; 0; 0]%nat).
  rewrite <- not_false_iff_true in A. apply A.
  - apply in_all_idx. change (shape x1) with [1; C; F; 1; 1]%nat. repeat constructor; auto.
  - change (get x1 [0; c; f; 0; 0]%nat) with (match gy [0; c; f]%nat with Some v => v | None => lf_zero lf end).
    change (gy [0; c; f]%nat) with (get (mkT [1%nat; e_C E; e_F E] gy) [0; c; f]%nat). rewrite Gy by auto. cbn. rewrite Hz. auto.
Qed.
(** On complete rows the likelihood is the network value of the densities. *)
Lemma lik_dens (J : leaves) z k : (k < e_K E)%nat -> (forall c f, (c < C)%nat -> (f < F)%nat -> z c f <> None) ->
  lik E (row_tensor C F z) None 0 k = neteval (fnet E) (wval (dens lf) J z) k.
Proof.
  intros Hk Hz.
  destruct (forallb (fun c => forallb (fun f => match z c f with Some v => lf_supp lf v | None => true end) (seq 0 F)) (seq 0 C)) eqn:Es.
  - assert (S: forall c f v, (c < C)%nat -> (f < F)%nat -> z c f = Some v -> lf_supp lf v = true).
    { intros c f v Hc Hf Hv. rewrite forallb_forall in Es. specialize (Es c ltac:(apply in_seq; lia)).
      rewrite forallb_forall in Es. specialize (Es f ltac:(apply in_seq; lia)). rewrite Hv in Es. auto. }
    rewrite lik_row by auto. apply neteval_ext; [apply fnet_wf; auto|auto|]. intros c f l r Hc Hf Hl Hr. unfold lval, wval.
    destruct (z c f) as [v|] eqn:Ev; [|destruct (Hz c f Hc Hf Ev)]. symmetry. apply dens_pdf; auto. apply (S c f); auto.
  - assert (Fx: forall n (b : nat -> bool), forallb b (seq 0 n) = false -> exists i, (i < n)%nat /\ b i = false).
    { clear. intros n b. induction n; [discriminate|]. rewrite seq_S_app, forallb_app. cbn [forallb]. rewrite Nat.add_0_l, andb_true_r.
      intros H. apply andb_false_iff in H as [H|H]; [destruct (IHn H) as (i & Hi & E0); exists i; auto|exists n; auto]. }
    apply Fx in Es as (c & Hc & Es). apply Fx in Es as (f & Hf & Es). destruct (z c f) as [v|] eqn:Ev; [|discriminate].
    rewrite (lik_outside z k c f v) by auto. symmetry. apply (neteval_zero _ _ c f); auto; [apply fnet_wf; auto| |].
    + intros c' f' l r Hc' Hf' _ _. unfold wval. destruct (z c' f') eqn:E'; [apply dens_nonneg|destruct (Hz c' f' Hc' Hf' E')].
    + intros l r _ _. unfold wval. rewrite Ev. unfold dens. rewrite Es. auto.
Qed.
(** The likelihood of a row with missing entries is the integral of the likelihood over them. *)
Theorem lik_integral N x ms n k ps : input_ok E N x ms -> (n < N)%nat -> (k < e_K E)%nat -> missing C F (row x ms n) ps ->
  integrates Int (fun z => lik E (row_tensor C F z) None 0 k) ps (row x ms n) (lik E x ms n k).
Proof.
  intros Hi Hn Hk Hm. rewrite (lik_eval E HE N) by auto. fold lf.
  assert (Sup: forall c f v, (c < C)%nat -> (f < F)%nat -> row x ms n c f = Some v -> lf_supp lf v = true).
  { intros c f v Hc Hf Hv. destruct Hi as (_ & H & _). apply (H n c f v); auto. revert Hv. unfold row. destruct (in_ms ms f); [discriminate|auto]. }
  replace (neteval (fnet E) (lval (pdf lf) (row x ms n)) k) with (neteval (fnet E) (wval (dens lf) (fun _ _ _ _ => 1) (row x ms n)) k).
  2:{ apply neteval_ext; [apply fnet_wf; auto|auto|]. intros c f l r Hc Hf Hl Hr. unfold lval, wval.
      destruct (row x ms n c f) as [v|] eqn:Ev; auto. apply dens_pdf; auto. apply (Sup c f); auto. }
  apply (net_integrates (fnet E) (fnet_wf E HE) Int lin (dens lf) (fun _ _ _ _ => 1)); auto.
  - intros; apply dens_nonneg.
  - intros; lra.
  - intros z Hz. apply lik_dens; auto.
  - intros c f l r Hin Hl Hr. destruct Hm as [_ Hm]. apply Hm in Hin as (Hc & Hf & _). apply total; auto.
Qed.
(** The same against a product of test functions. *)
Theorem lik_tests EL (h : nat -> nat -> V -> R) z k ps : (k < e_K E)%nat -> missing C F z ps ->
  (forall c f v, (c < C)%nat -> (f < F)%nat -> z c f = Some v -> lf_supp lf v = true) ->
  (forall c f v, 0 <= h c f v) ->
  (forall c f, In (c, f) ps -> leaf_law Int lf EL c f (h c f)) ->
  integrates Int (fun z => lik E (row_tensor C F z) None 0 k * tests C F h z) ps z
    (neteval (fnet E) (fun c f l r => match z c f with Some v => pdf lf c f l r v * h c f v | None => EL [c; f; l; r] (h c f) end) k).
Proof.
  intros Hk Hm Sup Hh HL. destruct lfdims as (Ec & Ef & El & Er).
  set (w := fun c f l r v => h c f v * dens lf c f l r v).
  set (J := fun c f l r => if existsb (fun p => Nat.eqb (fst p) c && Nat.eqb (snd p) f) ps then EL [c; f; l; r] (h c f) else 1).
  assert (HJin: forall c f l r, In (c, f) ps -> J c f l r = EL [c; f; l; r] (h c f)).
  { intros c f l r Hin. unfold J. replace (existsb _ ps) with true; auto. symmetry. apply existsb_exists. exists (c, f). split; auto.
    cbn. rewrite !Nat.eqb_refl. auto. }
  assert (Jp: forall c f l r, (c < C)%nat -> (f < F)%nat -> (l < e_L E)%nat -> (r < e_R E)%nat -> 0 <= J c f l r).
  { intros c f l r Hc Hf Hl Hr. unfold J. destruct (existsb _ ps) eqn:Ex; [|lra].
    apply existsb_exists in Ex as ([c' f'] & Hin & Ex). cbn in Ex. apply andb_true_iff in Ex as [E1 E2].
    apply Nat.eqb_eq in E1, E2. subst c' f'. destruct (HL c f Hin) as [H0 HLL].
    apply (li_pos _ (lin c f Hc Hf) (fun v => dens lf c f l r v * h c f v)); [|apply HLL; rewrite ?El, ?Er; auto].
    intros v. apply Rmult_le_pos; auto. apply dens_nonneg. }
  assert (Wp: forall c f l r v, (c < C)%nat -> (f < F)%nat -> (l < e_L E)%nat -> (r < e_R E)%nat -> 0 <= w c f l r v).
  { intros. unfold w. apply Rmult_le_pos; auto. apply dens_nonneg. }
  replace (neteval (fnet E) _ k) with (neteval (fnet E) (wval w J z) k).
  2:{ apply neteval_ext; [apply fnet_wf; auto|auto|]. intros c f l r Hc Hf Hl Hr. unfold wval, w.
      destruct (z c f) as [v|] eqn:Ev; [rewrite dens_pdf by (auto; apply (Sup c f); auto); ring|].
      apply HJin. apply Hm. auto. }
  apply (net_integrates (fnet E) (fnet_wf E HE) Int lin w J); auto.
  - intros zz Hz. rewrite (lik_dens J) by auto. unfold tests.
    transitivity (rprod C (fun c => rprod F (fun f => match zz c f with Some v => h c f v | None => 1 end)) * neteval (fnet E) (wval (dens lf) J zz) k); [ring|].
    rewrite <- (neteval_scale (fnet E) (wval (dens lf) J zz) (fun c f => match zz c f with Some v => h c f v | None => 1 end)).
    + apply neteval_ext; [apply fnet_wf; auto|auto|]. intros c f l r Hc Hf _ _. unfold wval, w.
      destruct (zz c f) eqn:E'; [ring|destruct (Hz c f Hc Hf E')].
    + apply fnet_wf; auto.
    + auto.
    + intros c f l r Hc Hf _ _. unfold wval. destruct (zz c f) eqn:E'; [apply dens_nonneg|destruct (Hz c f Hc Hf E')].
    + intros c f. destruct (zz c f); auto. lra.
  - intros c f l r Hin Hl Hr. pose proof Hin as Hin'. apply Hm in Hin' as (Hc & Hf & _). rewrite HJin by auto.
    destruct (HL c f Hin) as [_ HLL]. apply (li_ext _ (lin c f Hc Hf) (fun v => dens lf c f l r v * h c f v)).
    + intros v. unfold w. ring.
    + apply HLL; rewrite ?El, ?Er; auto.
Qed.
End Lik.
