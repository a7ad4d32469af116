(** Differentiable sampling follows index sampling: one-hot tensors stay exactly one-hot and select
    what the index selects. *)
From Coq Require Import List Arith Lia Bool ZArith Reals Lra.
Import ListNotations.
From Verif Require Import Base RSum Num Tensor Prob Layers Circuit Net RefFwd RefSample RefLaw Leaf Perm RefLeaf RefLeafS Einet RefNet RefEinet RefEinetS RefMpe Diff TypeChecks.
Local Open Scope R_scope.
Local Arguments Nat.div : simpl never.
Local Arguments Nat.modulo : simpl never.
Local Arguments Nat.sub : simpl never.
Local Arguments Nat.mul : simpl never.
Local Arguments Nat.add : simpl never.
Local Arguments Nat.min : simpl never.
Local Arguments clamp : simpl never.
Local Arguments bdim : simpl never.

(** * One-hot rows *)
Definition hot (k i : nat) : num := Fin (if (k =? i)%nat then 1 else 0).

Lemma nsum_hot K t i : (i < K)%nat -> (forall k, (k < K)%nat -> isfin (t k) = true) ->
  nsum K (fun k => nmul (t k) (hot k i)) = t i.
Proof.
  intros Hi H. rewrite (nsum_fin K _ (fun k => toR (t k) * (if (k =? i)%nat then 1 else 0))).
  - rewrite (rsum_single K i); auto.
    + rewrite Nat.eqb_refl, Rmult_1_r. symmetry. apply isfin_Fin. auto.
    + intros k Hk Hne. destruct (Nat.eqb_spec k i); [congruence|]. ring.
  - intros k Hk. rewrite (isfin_Fin (t k)) at 1 by auto. reflexivity.
Qed.

(** ** Straight-through samples *)
Lemma argmax_aux_mono (f g : nat -> num) n : forall i b, (forall j k, (j < i + n)%nat -> (k < i + n)%nat -> nltb (f j) (f k) = nltb (g j) (g k)) ->
  (b < i + n)%nat -> argmax_aux f n i b = argmax_aux g n i b.
Proof.
  induction n as [|n IH]; intros i b H Hb; cbn [argmax_aux]; auto.
  rewrite H by lia. apply IH; [|destruct (nltb (g b) (g i)); lia].
  intros j k Hj Hk. apply H; lia.
Qed.
Lemma nargmax_mono K f g : (forall j k, (j < K)%nat -> (k < K)%nat -> nltb (f j) (f k) = nltb (g j) (g k)) ->
  (0 < K)%nat -> nargmax K f = nargmax K g.
Proof. intros H HK. unfold nargmax. apply argmax_aux_mono; [|lia]. intros. apply H; lia. Qed.
Lemma nargmax_exp_softmax K (r : nat -> R) (g : nat -> num) : (0 < K)%nat ->
  (forall k, (k < K)%nat -> g k = Fin (rsoftmax K r k)) -> nargmax K g = nargmax K (fun k => Fin (r k)).
Proof.
  intros HK H. apply nargmax_mono; auto. intros j k Hj Hk. rewrite !H by auto. unfold nltb.
  pose proof (rsumexp_pos K r HK) as P. unfold rsoftmax.
  assert (E: forall a b, a < b <-> exp a / rsum K (fun j => exp (r j)) < exp b / rsum K (fun j => exp (r j))).
  { intros a b. split; intros Hab.
    - unfold Rdiv. apply Rmult_lt_compat_r; [apply Rinv_0_lt_compat; auto|]. apply exp_increasing; auto.
    - apply exp_lt_inv. apply (Rmult_lt_reg_r (/ rsum K (fun j => exp (r j)))); auto. apply Rinv_0_lt_compat; auto. }
  destruct (Rlt_dec (r j) (r k)) as [A|A], (Rlt_dec (exp (r j) / _) (exp (r k) / _)) as [B|B]; auto; exfalso.
  - apply B. apply (proj1 (E _ _)); auto.
  - apply A. apply (proj2 (E _ _)); auto.
Qed.

(** * Gumbel noise *)
Lemma eps_pos : 0 < eps.
Proof. unfold eps. apply Rinv_0_lt_compat. apply pow_lt. lra. Qed.
Definition rgumbel (u : R) : R := - ln (- ln (u + eps) + eps).
(** Entries of torch.rand lie in [0, 1): the noise is finite. *)
Lemma gumbel_fin u : 0 <= u < 1 -> gumbel u = Fin (rgumbel u).
Proof.
  intros Hu. pose proof eps_pos as He. unfold gumbel, rgumbel. cbn [nadd]. unfold nlog at 2.
  destruct (Rlt_dec 0 (u + eps)) as [_|]; [|lra]. cbn [nneg nadd].
  assert (A: ln (u + eps) < eps).
  { apply Rlt_trans with (ln (1 + eps)); [apply ln_increasing; lra|]. rewrite <- (ln_exp eps) at 2. apply ln_increasing; [lra|]. apply exp_ineq1. lra. }
  unfold nlog. destruct (Rlt_dec 0 (- ln (u + eps) + eps)) as [_|]; [|lra]. reflexivity.
Qed.

(** The index that the straight-through sampler picks. *)
Definition picks (lw : tensor num) (u : list nat -> R) (mpe : bool) (kt : tensor nat) (N D K : nat) : Prop :=
  forall n d, (n < N)%nat -> (d < D)%nat -> (get kt [n; d] < K)%nat /\
    (mpe = true -> get kt [n; d] = nargmax K (fun k => get lw [n; d; k])) /\
    (mpe = false -> (forall k, (k < K)%nat -> 0 <= u [n; d; k] < 1) ->
      get kt [n; d] = nargmax K (fun k => Fin (toR (get lw [n; d; k]) + rgumbel (u [n; d; k])))).

(** [oh] is the one-hot encoding of [i]. *)
Definition onehot (oh : tensor num) (N D S : nat) (i : tensor nat) : Prop :=
  shape oh = [N; D; S] /\ forall n d k, (n < N)%nat -> (d < D)%nat -> (k < S)%nat -> get oh [n; d; k] = hot k (get i [n; d]).

Lemma SIMPLE_ok u mpe lw N D K w : (0 < K)%nat -> lrows lw N D K w ->
  exists oh kt, SIMPLE u mpe lw 2 = Ok oh /\ shape kt = [N; D] /\ onehot oh N D K kt /\ picks lw u mpe kt N D K.
Proof.
  intros HK [Sw Gw]. destruct lw as [sl gl]. cbn [shape get] in *. subst sl. unfold SIMPLE. cbv zeta. set (y := tmap nexp (mkT [N; D; K] gl)). cbn [shape].
  assert (B: exists b, (if mpe then Ok (mkT [N; D; K] gl) else badd (mkT [N; D; K] gl) (mkT [N; D; K] (fun idx => gumbel (u idx)))) = Ok b /\
     shape b = [N; D; K] /\ (mpe = true -> b = mkT [N; D; K] gl) /\
     (mpe = false -> forall n d k, (n < N)%nat -> (d < D)%nat -> (k < K)%nat -> get b [n; d; k] = nadd (gl [n; d; k]) (gumbel (u [n; d; k])))).
  { destruct mpe; [eexists; split; [reflexivity|]; split; auto; split; [auto|discriminate]|]. unfold badd. destruct (bop_same nadd (mkT [N; D; K] gl) (mkT [N; D; K] (fun idx => gumbel (u idx)))) as (b & Eb & Sb & Gb); auto.
    exists b. split; auto. split; auto. split; [discriminate|]. intros _ n d k Hn Hd Hk. rewrite Gb by (cbn [shape]; simpl; auto). reflexivity. }
  destruct B as (b & Eb & Sb & Mb & Gb). rewrite Eb. cbn [bind].
  set (kt := targmax 2 (tsoftmax 2 b)).
  assert (Sk: shape kt = [N; D]) by (unfold kt, targmax, reduce, tsoftmax; cbn [shape]; rewrite Sb; reflexivity).
  set (yh := mkT [N; D; K] _).
  assert (Sy: shape y = [N; D; K]) by reflexivity.
  destruct (bop_same nsub yh y) as (s & Es & Ss & Gs); auto.
  unfold bsub. rewrite Es. cbn [bind].
  destruct (bop_same nadd s y) as (o & Eo & So & Go); [rewrite Ss; auto|].
  unfold badd. rewrite Eo. rewrite Ss in *. cbn [shape yh] in *.
  exists o, kt. split; auto. split; auto. split; [split; auto|].
  - intros n d k Hn Hd Hk. rewrite Go by (simpl; auto). rewrite Gs by (simpl; auto).
    unfold yh, y. cbn [get tmap nth remove_nth]. destruct (Gw n d k Hn Hd Hk) as [_ ->]. unfold hot. cbn [nexp nsub nneg nadd]. f_equal.
    destruct (k =? get kt [n; d])%nat; ring.
  - intros n d Hn Hd. unfold kt, targmax, reduce. cbn [get]. unfold tsoftmax, size. cbn [shape]. rewrite Sb. cbn [nth insert_nth].
    split; [apply nargmax_lt; auto|]. split; [intros Hm; rewrite (Mb Hm)|intros Hm Hu; specialize (Gb Hm)]; cbn [get set_nth].
    + rewrite (nargmax_exp_softmax K (fun k => ln (w n d k))); auto.
      * apply nargmax_ext. intros k Hk. destruct (Gw n d k Hn Hd Hk) as [_ ->]. reflexivity.
      * intros k Hk. destruct (Gw n d k Hn Hd Hk) as [_ ->]. unfold rsoftmax.
        rewrite (nsum_fin K _ (fun j => exp (ln (w n d j)))).
        -- cbn [nexp]. apply ndiv_fin. apply Rgt_not_eq. apply (rsumexp_pos K (fun j => ln (w n d j))); auto.
        -- intros j Hj. destruct (Gw n d j Hn Hd Hj) as [_ ->]. reflexivity.
    + set (f := fun k => toR (gl [n; d; k]) + rgumbel (u [n; d; k])).
      assert (Gf: forall k, (k < K)%nat -> get b [n; d; k] = Fin (f k)).
      { intros k Hk. rewrite Gb by auto. rewrite gumbel_fin by auto. unfold f. destruct (Gw n d k Hn Hd Hk) as [_ ->]. reflexivity. }
      rewrite (nargmax_exp_softmax K f); auto. intros k Hk. unfold rsoftmax.
      rewrite (nsum_fin K _ (fun j => exp (f j))).
      * rewrite Gf by auto. cbn [nexp]. apply ndiv_fin. apply Rgt_not_eq. apply (rsumexp_pos K f); auto.
      * intros j Hj. cbn [insert_nth]. rewrite Gf by auto. reflexivity.
Qed.

(** ** Contexts *)
Definition hotrep (rep : tensor num) (N Rn : nat) (i : tensor nat) : Prop :=
  shape rep = [N; Rn] /\ forall n r, (n < N)%nat -> (r < Rn)%nat -> get rep [n; r] = hot r (get i [n]).
Definition ohctx (cd : dctx) (c : sctx) (N D S Rn : nat) : Prop :=
  cgood c N D S Rn /\ d_n cd = N /\ onehot (d_out cd) N D S (c_out c) /\ hotrep (d_rep cd) N Rn (c_rep c) /\
  d_mpe cd = c_mpe c /\ d_tsum cd = c_tsum c.
Lemma dcheck_ok cd c N D S Rn : ohctx cd c N D S Rn -> dcheck D S Rn cd = Ok tt.
Proof.
  intros (_ & Hn & (So & _) & (Sr & _) & _). unfold dcheck, size, dim. rewrite Hn, So, Sr. cbn [nth length].
  rewrite !Nat.eqb_refl. reflexivity.
Qed.

Lemma ioh_eq d (t i : tensor num) : size t d = size i d -> dim t = dim i ->
  index_one_hot d t i = bind (bmul t i) (fun p => Ok (tsum d p)).
Proof. intros H1 H2. unfold index_one_hot. rewrite H1, H2, !Nat.eqb_refl. reflexivity. Qed.

Lemma rep4 rep N Rn i : hotrep rep N Rn i -> exists r', view [N; 1; 1; Rn]%nat rep = Ok r' /\ shape r' = [N; 1; 1; Rn]%nat /\
  forall n r, (n < N)%nat -> (r < Rn)%nat -> get r' [n; 0; 0; r]%nat = hot r (get i [n]).
Proof.
  intros [Sr Gr]. unfold view. rewrite Sr. cbn [numel]. rewrite !Nat.mul_1_l, !Nat.mul_1_r, Nat.eqb_refl.
  eexists. split; [reflexivity|]. split; [reflexivity|]. intros n r Hn Hr. cbn [get].
  replace (ravel [N; 1; 1; Rn]%nat [n; 0; 0; r]%nat) with (ravel [N; Rn] [n; r]) by (cbn [ravel numel]; lia).
  rewrite unravel_ravel by (simpl; auto). auto.
Qed.

Lemma dselect_disor_ok lg N D S O Rn p i rep ir : lfin lg [D; S; O; Rn] ->
  onehot p N D O i -> (forall n d, (n < N)%nat -> (d < D)%nat -> (get i [n; d] < O)%nat) ->
  hotrep rep N Rn ir -> (forall n, (n < N)%nat -> (get ir [n] < Rn)%nat) ->
  exists g, dselect_disor lg N D S Rn p rep = Ok g /\ shape g = [N; D; S] /\
    forall n d k, (n < N)%nat -> (d < D)%nat -> (k < S)%nat ->
      get g [n; d; k] = get lg [d; k; get i [n; d]; get ir [n]].
Proof.
  intros Hl [Sp Gp] Hi Hrep Hr. destruct (rep4 rep N Rn ir Hrep) as (r' & Er & Sr & Gr).
  pose proof Hl as [Sl Fl]. destruct lg as [sl gl], p as [sp gp], r' as [sr gr]. cbn [shape get] in Sl, Fl, Sp, Gp, Sr, Gr. subst sl sp sr.
  unfold dselect_disor. rewrite ioh_eq by reflexivity. unfold bmul.
  unfold unsqueeze. cbn [shape insert_nth]. bcast. unfold tsum, reduce. cbn [bind shape remove_nth].
  rewrite eqb_list_refl. cbn [assert bind]. rewrite Er. cbn [bind].
  rewrite ioh_eq by reflexivity. bcast. unfold tsum, reduce. cbn [bind shape remove_nth].
  rewrite eqb_list_refl. cbn [assert bind].
  eexists. split; [reflexivity|]. split; [reflexivity|].
  intros n d k Hn Hd Hk. pose proof (Hr n Hn) as Hrn. pose proof (Hi n d Hn Hd) as Hin.
  unfold size. cbn [get shape nth insert_nth].
  rewrite (nsum_ext _ _ (fun r => nmul (gl [d; k; get i [n; d]; r]) (hot r (get ir [n])))).
  - apply nsum_hot; auto. intros r Hr'. apply (Fl [d; k; get i [n; d]; r]). simpl. auto 10.
  - intros r Hr'. gets. rewrite Gr by auto. f_equal.
    rewrite (nsum_ext _ _ (fun o => nmul (gl [d; k; o; r]) (hot o (get i [n; d])))).
    + apply nsum_hot; auto. intros o Ho. apply (Fl [d; k; o; r]). simpl. auto 10.
    + intros o Ho. gets. rewrite Gp by auto. reflexivity.
Qed.
Ltac ioh := rewrite ioh_eq by reflexivity; bcast; unfold tsum, reduce; cbn [bind shape remove_nth].
Ltac isf H := match goal with |- isfin (?g ?l) = true => apply (H l); simpl; auto 12 end.

Lemma drep_rows x N D S Rn v rep ir : trep x N D S Rn v -> hotrep rep N Rn ir ->
  (forall n, (n < N)%nat -> (get ir [n] < Rn)%nat) ->
  exists t, drep x N Rn rep = Ok t /\ lrows t N D S (fun n d s => v n d s (get ir [n])).
Proof.
  intros [Sx Gx] Hrep Hr. destruct (rep4 rep N Rn ir Hrep) as (r' & Er & Sr & Gr).
  destruct x as [sx gx], r' as [sr gr]. cbn [shape get] in Sx, Gx, Sr, Gr. subst sx sr.
  unfold drep. rewrite Er. cbn [bind]. ioh. eexists. split; [reflexivity|]. split; [reflexivity|].
  intros n d s Hn Hd Hs. pose proof (Hr n Hn) as Hrn. unfold size. cbn [get shape nth insert_nth].
  rewrite (nsum_ext _ _ (fun r => nmul (gx [n; d; s; r]) (hot r (get ir [n])))).
  - rewrite nsum_hot; auto. intros r Hr'. destruct (Gx n d s r) as [_ ->]; auto.
  - intros r Hr'. gets. rewrite Gr by auto. reflexivity.
Qed.

(** ** Layers *)
Definition dsampler (df : (list nat -> R) -> dctx -> res dctx) (N Rn : nat) (U : ulayer) (v : nat -> vals) (T : R) : Prop :=
  forall u cd c, ohctx cd c N (uDout U) (uSout U) Rn -> c_tsum c = T ->
  exists lw kt oh, df u cd = Ok (dset_out cd oh) /\
    lrows lw N (uDout U) (uK U) (fun n d k => upost U (v n) d (get (c_out c) [n; d]) (get (c_rep c) [n]) k) /\
    shape kt = [N; uDout U] /\ picks lw u (c_mpe c) kt N (uDout U) (uK U) /\
    forall i, (forall n d', (n < N)%nat -> (d' < uDin U)%nat ->
        get i [n; d'] = usel U (upar U d') (get (c_out c) [n; upar U d']) (get kt [n; upar U d']) d') ->
      onehot oh N (uDin U) (uSin U) i.

Lemma dsample_with_eq fout so nr sel cond draw ca u c lw0 lw i : dcheck fout so nr c = Ok tt -> sel c = Ok lw0 ->
  (match ca with None => Ok lw0 | Some x => cond c x lw0 end) = Ok lw -> draw c u lw = Ok i ->
  dsample_with fout so nr sel cond draw ca u c = Ok (dset_out c i).
Proof. intros H1 H2 H3 H4. unfold dsample_with. rewrite H1. cbn [bind]. rewrite H2. cbn [bind]. rewrite H3. cbn [bind]. rewrite H4. reflexivity. Qed.

Lemma ddisor_wrows lg cd c N D S O Rn U T : T <> 0 -> (0 < S)%nat -> lfin lg [D; S; O; Rn] -> uDout U = D -> uK U = S -> uSout U = O ->
  (forall d o r k, uW U d o r k = wsoft S T (fun k => get lg [d; k; o; r]) k) ->
  ohctx cd c N D O Rn -> exists g, dselect_disor lg N D S Rn (d_out cd) (d_rep cd) = Ok g /\
    wrows (logits_to_log_weights g 2 T) N U c.
Proof.
  intros HT HS Hl ED EK EO EW ((Hn & So & Go & Sr & Gr) & _ & Ho & Hp & _).
  destruct (dselect_disor_ok lg N D S O Rn (d_out cd) (c_out c) (d_rep cd) (c_rep c)) as (g & Eg & Sg & Gg); auto.
  exists g. split; auto. unfold wrows. rewrite ED, EK. split.
  - rewrite ltlw_shape. auto.
  - intros n d k Hn' Hd Hk. rewrite EW. split; [apply wsoft_pos; auto|].
    apply (lw_rows g N D S T (fun n d k => get lg [d; k; get (c_out c) [n; d]; get (c_rep c) [n]])); auto.
    intros n' d' k' Hn'' Hd' Hk'. split; [apply Gg; auto|]. apply Hl. simpl. auto 10.
Qed.

Lemma view_infer_rows3 {A} N X S (t : tensor A) : (0 < N)%nat -> (0 < S)%nat -> shape t = [N; X; S] ->
  exists t', view_infer [N] [S] t = Ok t' /\ shape t' = [N; X; S] /\
    forall n x k, (n < N)%nat -> (x < X)%nat -> (k < S)%nat -> get t' [n; x; k] = get t [n; x; k].
Proof.
  intros HN HS E. unfold view_infer. cbn [numel]. destruct (Nat.eqb_spec (N * 1 * (S * 1)) 0) as [Z|_]; [nia|].
  rewrite E. cbn [numel app].
  replace (N * (X * (S * 1)) / (N * 1 * (S * 1)))%nat with X by (apply Nat.div_unique with (r := 0%nat); [nia|ring]).
  destruct (view_same [N; X; S] t E) as (t' & H1 & H2 & H3). exists t'. split; [auto|]. split; auto.
  intros. apply H3. simpl; auto.
Qed.

Theorem dsum_dsampler L N ca v T : sum_ok L -> T <> 0 -> sum_cached L N ca v ->
  dsampler (dsum_sample L ca) N (nrep L) (sum_u L T) v T.
Proof.
  intros (HS & Hl) HT Hca u cd c Hc Ec. pose proof Hc as (Gc & Hn & Ho & Hr & Em & Et).
  cbn [sum_u uDout uSout uK uDin uSin] in *.
  destruct (ddisor_wrows (logits L) cd c N (nf L) (sin L) (sout L) (nrep L) (sum_u L T) T) as (g & Eg & Wg); auto.
  assert (Esel: dsum_select L cd = Ok (logits_to_log_weights g 2 T)).
  { unfold dsum_select. rewrite Hn, Eg, Et, Ec. reflexivity. }
  pose proof (sum_u_wf (nrep L) L T HS) as Hw. pose proof Gc as (_ & So & Go & Sr & Gr).
  assert (Q: exists lw, match ca with None => Ok (logits_to_log_weights g 2 T)
       | Some x => dsum_condition L cd x (logits_to_log_weights g 2 T) end = Ok lw /\
     lrows lw N (nf L) (sin L) (fun n d k => upost (sum_u L T) (v n) d (get (c_out c) [n; d]) (get (c_rep c) [n]) k)).
  { destruct Hca as [[-> ->]|(x & -> & Hx)].
    - eexists. split; [reflexivity|]. apply (wrows_one _ _ _ _ _ Hw Gc Wg).
    - unfold dsum_condition. rewrite Hn. destruct (drep_rows x N _ _ _ _ (d_rep cd) _ Hx Hr Gr) as (ll & El & Rl). rewrite El. cbn [bind].
      destruct (wrows_post _ (sum_u L T) N c _ ll v Hw HS Gc Wg) as (t & Et' & Ht); [|exists t; auto].
      eapply lrows_ext; [exact Rl|]. intros n d k Hn' Hd Hk. unfold uprod. simpl. ring. }
  destruct Q as (lw & Elw & Hlw).
  destruct (SIMPLE_ok u (d_mpe cd) lw N (nf L) (sin L) _ HS Hlw) as (oh & kt & Es & Sk & Hoh & Hpk).
  exists lw, kt, oh. split.
  { unfold dsum_sample. apply (dsample_with_eq _ _ _ _ _ _ _ _ _ _ _ _ (dcheck_ok _ _ _ _ _ _ Hc) Esel Elw Es). }
  split; [exact Hlw|]. split; auto. rewrite <- Em. split; auto.
  intros i Hi. destruct Hoh as [So' Go']. split; auto. intros n d k Hn' Hd Hk. rewrite Go' by auto. rewrite Hi by auto. reflexivity.
Qed.

Lemma linsum_total L : (2 <= nf L)%nat -> (linsum_features_out L * 2 = nf L + linsum_pad L)%nat.
Proof.
  intros H2. pose proof (Nat.div_mod (nf L) 2 ltac:(lia)) as E1. pose proof (Nat.mod_upper_bound (nf L) 2 ltac:(lia)) as E2.
  unfold linsum_features_out, linsum_pad. rewrite div2_half.
  pose proof (Nat.div_mod (nf L + 1) 2 ltac:(lia)). pose proof (Nat.mod_upper_bound (nf L + 1) 2 ltac:(lia)). lia.
Qed.
Theorem dlinsum_dsampler L N ca v T : linsum_ok L -> (0 < N)%nat -> T <> 0 -> linsum_cached L N ca v ->
  dsampler (dlinsum_sample L ca) N (nrep L) (linsum_u L T) v T.
Proof.
  intros (HS & HF & Hl) HN HT Hca u cd c Hc Ec. pose proof Hc as (Gc & Hn & Ho & Hr & Em & Et).
  cbn [linsum_u uDout uSout uK uDin uSin] in *.
  destruct (ddisor_wrows (logits L) cd c N (linsum_features_out L) (sin L) (sout L) (nrep L) (linsum_u L T) T) as (g & Eg & Wg); auto.
  assert (Esel: dlinsum_select L cd = Ok (logits_to_log_weights g 2 T)).
  { unfold dlinsum_select. rewrite Hn, Eg, Et, Ec. reflexivity. }
  pose proof (linsum_u_wf (nrep L) L T HS) as Hw. pose proof Gc as (_ & So & Go & Sr & Gr).
  assert (Q: exists lw, match ca with None => Ok (logits_to_log_weights g 2 T)
       | Some x => dlinsum_condition L cd x (logits_to_log_weights g 2 T) end = Ok lw /\
     lrows lw N (linsum_features_out L) (sin L) (fun n d k => upost (linsum_u L T) (v n) d (get (c_out c) [n; d]) (get (c_rep c) [n]) k)).
  { destruct Hca as [[-> ->]|(cl & cr & -> & Hcl & Hcr)].
    - eexists. split; [reflexivity|]. apply (wrows_one _ _ _ _ _ Hw Gc Wg).
    - unfold dlinsum_condition. rewrite Hn.
      destruct (drep_rows cl N _ _ _ _ (d_rep cd) _ Hcl Hr Gr) as (ll & El & Rl). rewrite El. cbn [bind].
      destruct (drep_rows cr N _ _ _ _ (d_rep cd) _ Hcr Hr Gr) as (lr & Er & Rr). rewrite Er. cbn [bind].
      destruct Rl as [Sl Gl]. destruct Rr as [Sr' Gr'].
      destruct (bop_same nadd ll lr) as (s & Es & Ss & Gs); [congruence|]. unfold badd. rewrite Es. cbn [bind].
      rewrite Sl in Ss, Gs. destruct (view_same _ s Ss) as (s' & Es' & Ss' & Gs'). rewrite Es'. cbn [bind].
      apply (wrows_post _ (linsum_u L T) N c _ _ v Hw HS Gc Wg). split; [exact Ss'|].
      intros n d k Hn' Hd Hk. rewrite Gs' by (simpl; auto). rewrite Gs by (simpl; auto).
      destruct (Gl n d k) as [P1 ->]; auto. destruct (Gr' n d k) as [P2 ->]; auto.
      unfold uprod. cbn [linsum_u ukids usel]. rewrite <- pairprod_val. split; [apply Rmult_lt_0_compat; auto|].
      simpl. rewrite ln_mul; auto. }
  destruct Q as (lw & Elw & Hlw).
  destruct (SIMPLE_ok u (d_mpe cd) lw N (linsum_features_out L) (sin L) _ HS Hlw) as (oh & kt & Es & Sk & (Soh & Goh) & Hpk).
  pose proof (linsum_total L HF) as EF.
  destruct (view_infer_rows3 N (linsum_features_out L * 2) (sin L) (repeat_interleave 1 2 oh) HN HS) as (t & Ev & St & Gt).
  { unfold repeat_interleave, size. cbn [shape]. rewrite Soh. reflexivity. }
  set (i0 := if (0 <? linsum_pad L)%nat then take 1 (size t 1 - linsum_pad L) t else t).
  assert (Ei: dlinsum_indices L cd u lw = Ok i0).
  { unfold dlinsum_indices, sample_categorical_diff. rewrite Es. cbn [bind]. rewrite Hn, Ev. reflexivity. }
  exists lw, kt, i0. split.
  { unfold dlinsum_sample. apply (dsample_with_eq _ _ _ _ _ _ _ _ _ _ _ _ (dcheck_ok _ _ _ _ _ _ Hc) Esel Elw Ei). }
  split; [exact Hlw|]. split; auto. rewrite <- Em. split; auto.
  intros i Hi.
  assert (G: forall n d k, (n < N)%nat -> (d < nf L)%nat -> (k < sin L)%nat -> get t [n; d; k] = hot k (get i [n; d])).
  { intros n d k Hn' Hd Hk. rewrite Gt by (auto; lia). unfold repeat_interleave. cbn [get nth set_nth]. rewrite Goh; auto.
    - rewrite Hi by auto. reflexivity.
    - apply Nat.div_lt_upper_bound; lia. }
  unfold i0. destruct (Nat.ltb_spec 0 (linsum_pad L)) as [Hp|Hp].
  - split; [|exact G]. unfold take, size. cbn [shape]. rewrite St. cbn [nth set_nth]. do 2 f_equal. lia.
  - split; [|exact G]. rewrite St. do 2 f_equal. lia.
Qed.

(** LinsumLayer2 with an even number of features: hand the index to both factors, then sample the sums. *)
Definition dpair_ctx (cd : dctx) : dctx := dset_out cd (repeat_interleave 1 2 (d_out cd)).
Definition dlinsum2_core (L : slay) (ca : option cache) (u : list nat -> R) (c : dctx) : res dctx :=
  lw <- dsum_select L c ;;
  lw <- match ca with None => Ok lw | Some x => dsum_condition L c x lw end ;;
  i <- dlinsum2_indices L c u lw ;;
  Ok (dset_out c i).
Lemma dpair_good L cd c N Rn : nf L mod 2 = 0%nat -> ohctx cd c N (linsum_features_out L) (sout L) Rn ->
  ohctx (dpair_ctx cd) (pair_ctx c) N (nf L) (sout L) Rn.
Proof.
  intros He (Gc & Hn & (So & Go) & Hr & Em & Et). pose proof (even_out L He) as E.
  split; [apply pair_ctx_good; auto|]. split; [exact Hn|]. split; [|split; [exact Hr|split; auto]].
  split.
  - unfold dpair_ctx, dset_out, repeat_interleave, size. cbn [d_out shape]. rewrite So. cbn [nth set_nth]. rewrite E. reflexivity.
  - intros n d k Hn' Hd Hk. unfold dpair_ctx, dset_out, pair_ctx, set_out, repeat_interleave. cbn [d_out c_out get nth set_nth].
    apply Go; auto. apply Nat.div_lt_upper_bound; lia.
Qed.
Lemma dlinsum2_sample_eq L ca u cd c N : nf L mod 2 = 0%nat -> ohctx cd c N (linsum_features_out L) (sout L) (nrep L) ->
  dlinsum2_sample L ca u cd = dlinsum2_core L ca u (dpair_ctx cd).
Proof.
  intros He Hc. unfold dlinsum2_sample, dsample_with. rewrite (dcheck_ok _ _ _ _ _ _ Hc). cbn [bind].
  unfold dlinsum2_core, dlinsum2_select, dsum_select, dpair_ctx, dset_out. cbn [d_n d_out d_rep d_tsum].
  unfold linsum_pad. rewrite He. cbn [Nat.ltb Nat.leb].
  destruct (dselect_disor _ _ _ _ _ _ _) as [g|e]; [|reflexivity]. cbn [bind].
  destruct ca as [[|x]|]; reflexivity.
Qed.
Theorem dlinsum2_dsampler L N ca v T : linsum2_ok L -> nf L mod 2 = 0%nat -> (0 < N)%nat -> T <> 0 ->
  sum_cached L N ca v -> dsampler (dlinsum2_core L ca) N (nrep L) (sum_u L T) v T.
Proof.
  intros (HS & HF & Hl) He HN HT Hca u cd c Hc Ec.
  destruct (dsum_dsampler L N ca v T (conj HS Hl) HT Hca u cd c Hc Ec) as (lw & kt & oh & E & Hlw & Sk & Hpk & Hoh).
  cbn [sum_u uDout uSout uK uDin uSin] in *. pose proof Hc as (Gc & Hn & _).
  unfold dsum_sample, dsample_with in E. rewrite (dcheck_ok _ _ _ _ _ _ Hc) in E. cbn [bind] in E.
  unfold dlinsum2_core. destruct (dsum_select L cd) as [l0|]; [|discriminate]. cbn [bind] in E |- *.
  destruct (match ca with None => Ok l0 | Some x => dsum_condition L cd x l0 end) as [l1|]; [|discriminate]. cbn [bind] in E |- *.
  unfold dsum_indices in E. unfold dlinsum2_indices. destruct (sample_categorical_diff u (d_mpe cd) l1 2) as [o|]; [|discriminate].
  cbn [bind] in E |- *. assert (o = oh) by (unfold dset_out in E; congruence). subst o.
  assert (Soh: shape oh = [N; nf L; sin L]).
  { destruct (Hoh (mkT [N; nf L] (fun idx => match idx with [n; d'] => usel (sum_u L T) (upar (sum_u L T) d')
       (get (c_out c) [n; upar (sum_u L T) d']) (get kt [n; upar (sum_u L T) d']) d' | _ => 0%nat end))) as [X _]; auto. }
  rewrite Hn. destruct (view_infer_rows3 N (nf L) (sin L) oh HN HS Soh) as (t & Ev & St & Gt). rewrite Ev. cbn [bind].
  unfold linsum_pad. rewrite He. cbn [Nat.ltb Nat.leb]. exists lw, kt, t. split; auto. split; auto. split; auto. split; auto.
  intros i Hi. destruct (Hoh i Hi) as [_ G]. split; auto. intros n d k Hn' Hd Hk. rewrite Gt by auto. auto.
Qed.

(** ** einsum *)
Lemma deinsum_select_ok L cd c N T : einsum_ok L -> T <> 0 -> c_tsum c = T ->
  ohctx cd c N (einsum_features_out L) (sout L) (nrep L) ->
  exists lw, deinsum_select L cd = Ok lw /\ wrows lw N (einsum_u L T) c.
Proof.
  intros (Hs & Ho & Hr & Hf & He & Hl) HT Ec ((_ & _ & Gi & _ & Gri) & Hn & (So & Go) & (Sr & Gr) & _ & Et).
  unfold deinsum_select, wrows. cbn [einsum_u uDout uK uW]. rewrite Hn, Et, Ec. unfold einsum_weight_shape in Hl.
  set (D := einsum_features_out L) in *. unfold einsum_w.
  set (S := sin L) in *. set (O := sout L) in *. set (Rn := nrep L) in *.
  assert (RV: exists r', view [N; 1; Rn; 1; 1]%nat (d_rep cd) = Ok r' /\ shape r' = [N; 1; Rn; 1; 1]%nat /\
    forall n r, (n < N)%nat -> (r < Rn)%nat -> get r' [n; 0; r; 0; 0]%nat = hot r (get (c_rep c) [n])).
  { unfold view. rewrite Sr. cbn [numel]. rewrite !Nat.mul_1_l, !Nat.mul_1_r, Nat.eqb_refl.
    eexists. split; [reflexivity|]. split; [reflexivity|]. intros n r Hn' Hr'. cbn [get].
    replace (ravel [N; 1; Rn; 1; 1]%nat [n; 0; r; 0; 0]%nat) with (ravel [N; Rn] [n; r]) by (cbn [ravel numel]; lia).
    rewrite unravel_ravel by (simpl; auto). auto. }
  destruct RV as (r' & Er & Sr' & Gr').
  destruct (logits L) as [sl gl], (d_out cd) as [so go], r' as [sr gr].
  pose proof Hl as [Hsl Hfin]. cbn [shape get] in Hsl, Hfin, So, Go, Sr', Gr'. subst sl so sr. cbn [unsq_end dim shape length insert_nth unsqueeze].
  unfold unsqueeze. cbn [shape insert_nth].
  ioh. rewrite eqb_list_refl. cbn [assert bind]. rewrite Er. cbn [bind]. ioh. rewrite eqb_list_refl. cbn [assert bind].
  cbn [size shape nth].
  match goal with |- context [view [_; _; (S * S)%nat] ?t] => set (t0 := t) end.
  destruct (view_flat2 N D S t0 Hs eq_refl) as (t & Ev & St & Gt).
  unfold size. cbn [shape nth]. rewrite Ev. cbn [bind].
  eexists. split; [reflexivity|]. split; [rewrite ltlw_shape; exact St|].
  intros n d k Hn' Hd Hk. split; [apply wsoft_pos; nia|].
  apply (lw_rows t N D (S * S) T (fun n d k => gl [d; get (c_out c) [n; d]; get (c_rep c) [n]; (k / S)%nat; (k mod S)%nat])); auto.
  intros n' d' k' Hn'' Hd' Hk'.
  assert (k' / S < S)%nat by (apply Nat.div_lt_upper_bound; lia).
  assert (k' mod S < S)%nat by (apply Nat.mod_upper_bound; lia).
  pose proof (Gri n' Hn'') as Hrn. pose proof (Gi n' d' Hn'' Hd') as Hin.
  assert (F: forall o r, (o < O)%nat -> (r < Rn)%nat -> isfin (gl [d'; o; r; (k' / S)%nat; (k' mod S)%nat]) = true).
  { intros o r Ho' Hr'. apply (Hfin [d'; o; r; (k' / S)%nat; (k' mod S)%nat]). simpl. auto 10. }
  split; [|apply F; auto].
  rewrite Gt by auto. unfold t0. unfold size. cbn [get shape nth insert_nth].
  rewrite (nsum_ext _ _ (fun r => nmul (gl [d'; get (c_out c) [n'; d']; r; (k' / S)%nat; (k' mod S)%nat]) (hot r (get (c_rep c) [n'])))).
  - apply (nsum_hot Rn (fun r => gl [d'; get (c_out c) [n'; d']; r; (k' / S)%nat; (k' mod S)%nat])); auto.
  - intros r Hr'. gets. rewrite Gr' by auto. f_equal.
    rewrite (nsum_ext _ _ (fun o => nmul (gl [d'; o; r; (k' / S)%nat; (k' mod S)%nat]) (hot o (get (c_out c) [n'; d'])))).
    + apply (nsum_hot O (fun o => gl [d'; o; r; (k' / S)%nat; (k' mod S)%nat])); auto.
    + intros o Ho'. gets. rewrite Go by auto. reflexivity.
Qed.

Lemma view_infer_pairs3 {A} N D S (t : tensor A) : (0 < N)%nat -> (0 < S)%nat -> shape t = [N; D; 2; S]%nat ->
  exists t', view_infer [N] [S] t = Ok t' /\ shape t' = [N; D * 2; S]%nat /\
    forall n x k, (n < N)%nat -> (x < D * 2)%nat -> (k < S)%nat -> get t' [n; x; k] = get t [n; x / 2; x mod 2; k]%nat.
Proof.
  intros HN HS E. unfold view_infer. cbn [numel]. destruct (Nat.eqb_spec (N * 1 * (S * 1)) 0) as [Z|_]; [nia|].
  rewrite E. cbn [numel app].
  replace (N * (D * (2 * (S * 1))) / (N * 1 * (S * 1)))%nat with (D * 2)%nat by (apply Nat.div_unique with (r := 0%nat); [nia|ring]).
  unfold view. rewrite E. cbn [numel].
  destruct (Nat.eqb_spec (N * (D * 2 * (S * 1))) (N * (D * (2 * (S * 1))))) as [_|Z]; [|lia].
  eexists. split; [reflexivity|]. split; [reflexivity|]. intros n x k Hn Hx Hk. cbn [get].
  assert (x / 2 < D)%nat by (apply Nat.div_lt_upper_bound; lia).
  assert (x mod 2 < 2)%nat by (apply Nat.mod_upper_bound; lia).
  replace (ravel [N; (D * 2)%nat; S] [n; x; k]) with (ravel [N; D; 2%nat; S] [n; (x / 2)%nat; (x mod 2)%nat; k]).
  - rewrite unravel_ravel by (simpl; auto). reflexivity.
  - cbn [ravel numel]. pose proof (Nat.div_mod x 2). nia.
Qed.
Lemma nsum_hot' n i (f : nat -> R) : (i < n)%nat -> nsum n (fun k => nmul (hot k i) (Fin (f k))) = Fin (f i).
Proof.
  intros H. rewrite <- (nsum_hot n (fun k => Fin (f k)) i); auto.
  apply nsum_ext. intros k Hk. unfold hot. cbn [nmul]. f_equal. ring.
Qed.
(** The pair of one-hot rows of a one-hot row over pairs. *)
Lemma deinsum_pairs N D S (oh : tensor num) kt : (0 < N)%nat -> (0 < S)%nat -> onehot oh N D (S * S) kt ->
  (forall n d, (n < N)%nat -> (d < D)%nat -> (get kt [n; d] < S * S)%nat) ->
  exists t, (let i := unsqueeze 3 oh in a <- bmul i (oh_0 S) ;; o1 <- oh_1 S ;; b <- bmul i o1 ;;
    s <- stack2 2 (tsum 2 a) (tsum 2 b) ;; view_infer [N] [S] s) = Ok t /\
    shape t = [N; D * 2; S]%nat /\ forall n x k, (n < N)%nat -> (x < D * 2)%nat -> (k < S)%nat ->
      get t [n; x; k] = hot k (if x mod 2 =? 0 then get kt [n; x / 2] / S else get kt [n; x / 2] mod S)%nat.
Proof.
  intros HN HS [So Go] Hk. destruct oh as [so go]. cbn [shape get] in So, Go. subst so. cbn zeta.
  unfold oh_1, oh_0, repeat_t, one_hot, repeat_interleave, size. cbn [shape length Nat.eqb nth set_nth map2 bind app].
  unfold unsqueeze. cbn [shape insert_nth]. bcast. cbn [bind]. cbn [bind]. bcast. cbn [bind].
  unfold tsum, reduce. cbn [shape remove_nth]. unfold stack2. cbn [shape]. rewrite eqb_list_refl. cbn [bind insert_nth].
  match goal with |- context [view_infer _ _ ?t] => set (s0 := t);
    destruct (view_infer_pairs3 N D S s0 HN HS eq_refl) as (t' & Ev & St & Gt) end.
  exists t'. split; [exact Ev|]. split; [exact St|].
  intros n x k Hn Hx Hks. rewrite Gt by auto. unfold s0. cbn [get nth remove_nth insert_nth].
  assert (x / 2 < D)%nat by (apply Nat.div_lt_upper_bound; lia).
  assert (x mod 2 < 2)%nat by (apply Nat.mod_upper_bound; lia).
  specialize (Hk n (x / 2)%nat Hn H).
  destruct (Nat.eqb_spec (x mod 2) 0).
  - rewrite (nsum_ext _ _ (fun j => nmul (hot j (get kt [n; (x / 2)%nat])) (Fin (if (k =? j / S)%nat then 1 else 0)))).
    + rewrite nsum_hot' by auto. reflexivity.
    + intros j Hj. change (j < S * S)%nat in Hj. gets. rewrite Go by auto. cbn [removelast last hd map2]. rewrite Nat.eqb_sym. reflexivity.
  - rewrite (nsum_ext _ _ (fun j => nmul (hot j (get kt [n; (x / 2)%nat])) (Fin (if (k =? j mod S)%nat then 1 else 0)))).
    + rewrite nsum_hot' by auto. reflexivity.
    + intros j Hj. change (j < S * S)%nat in Hj. gets. rewrite Go by auto. cbn [removelast last hd map2]. rewrite Nat.eqb_sym. reflexivity.
Qed.
Theorem deinsum_dsampler L N ca v T : einsum_ok L -> (0 < N)%nat -> T <> 0 -> einsum_cached L N ca v ->
  dsampler (deinsum_sample L ca) N (nrep L) (einsum_u L T) v T.
Proof.
  intros Hok HN HT Hca u cd c Hc Ec. pose proof Hc as (Gc & Hn & Ho & Hr & Em & Et).
  pose proof Gc as (Hcn & So & Go & Sr & Gr). pose proof Hok as (HS & _ & _ & HF & He & Hl).
  pose proof (einsum_u_wf (nrep L) L T HS He) as Hw.
  cbn [einsum_u uDout uSout uK uDin uSin] in *.
  destruct (deinsum_select_ok L cd c N T Hok HT Ec Hc) as (lw0 & Esel & Wg).
  assert (HK: (0 < sin L * sin L)%nat) by nia.
  assert (Q: exists lw, match ca with None => Ok lw0 | Some x => deinsum_condition L cd x lw0 end = Ok lw /\
     lrows lw N (einsum_features_out L) (sin L * sin L) (fun n d k => upost (einsum_u L T) (v n) d (get (c_out c) [n; d]) (get (c_rep c) [n]) k)).
  { destruct Hca as [[-> ->]|(cl & cr & -> & Hcl & Hcr)].
    - eexists. split; [reflexivity|]. apply (wrows_one _ _ _ _ _ Hw Gc Wg).
    - unfold deinsum_condition. rewrite Hn.
      destruct (drep_rows cl N _ _ _ _ (d_rep cd) _ Hcl Hr Gr) as (ll & El & Rl). rewrite El. cbn [bind].
      destruct (drep_rows cr N _ _ _ _ (d_rep cd) _ Hcr Hr Gr) as (lr & Er & Rr). rewrite Er. cbn [bind].
      destruct Rl as [Sl Gl]. destruct Rr as [Sr' Gr']. destruct ll as [sl gl], lr as [sr gr]. cbn [shape get] in Sl, Gl, Sr', Gr'. subst sl sr.
      unfold unsqueeze. cbn [shape insert_nth]. bcast. cbn [bind].
      match goal with |- context [view _ ?t] => set (s0 := t);
        destruct (view_flat2 N (einsum_features_out L) (sin L) s0 HS eq_refl) as (s' & Es' & Ss' & Gs') end.
      rewrite Es'. cbn [bind].
      apply (wrows_post _ (einsum_u L T) N c _ _ v Hw HK Gc Wg). split; [exact Ss'|].
      intros n d k Hn' Hd Hk. cbn [einsum_u uDout uK] in Hd, Hk. rewrite Gs' by auto.
      assert (k / sin L < sin L)%nat by (apply Nat.div_lt_upper_bound; lia).
      assert (k mod sin L < sin L)%nat by (apply Nat.mod_upper_bound; lia).
      unfold s0. gets.
      destruct (Gl n d (k / sin L)%nat) as [P1 ->]; auto. destruct (Gr' n d (k mod sin L)%nat) as [P2 ->]; auto.
      unfold uprod. cbn [einsum_u ukids usel lprod]. rewrite Nat.eqb_refl.
      destruct (Nat.eqb_spec (2 * d + 1) (2 * d)) as [Z|_]; [lia|]. rewrite Rmult_1_r. fold (lval2 (v n) d (k / sin L)%nat (get (c_rep c) [n])).
      split; [apply Rmult_lt_0_compat; auto|].
      simpl. rewrite ln_mul; auto. }
  destruct Q as (lw & Elw & Hlw).
  destruct (SIMPLE_ok u (d_mpe cd) lw N (einsum_features_out L) (sin L * sin L) _ HK Hlw) as (oh & kt & Es & Sk & Hoh & Hpk).
  assert (Hkt: forall n d, (n < N)%nat -> (d < einsum_features_out L)%nat -> (get kt [n; d] < sin L * sin L)%nat).
  { intros n d Hn' Hd. destruct (Hpk n d Hn' Hd); auto. }
  destruct (deinsum_pairs N _ _ oh kt HN HS Hoh Hkt) as (i0 & Ei0 & Si0 & Gi0).
  assert (Ei: deinsum_indices L cd u lw = Ok i0).
  { unfold deinsum_indices, sample_categorical_diff. rewrite Es. cbn [bind]. rewrite Hn. exact Ei0. }
  exists lw, kt, i0. split.
  { unfold deinsum_sample. apply (dsample_with_eq _ _ _ _ _ _ _ _ _ _ _ _ (dcheck_ok _ _ _ _ _ _ Hc) Esel Elw Ei). }
  split; [exact Hlw|]. split; auto. rewrite <- Em. split; auto.
  intros i Hi. assert (E: (einsum_features_out L * 2 = nf L)%nat).
  { unfold einsum_features_out. pose proof (Nat.div_mod (nf L) 2 ltac:(lia)). lia. }
  rewrite E in *. split; [exact Si0|]. intros n d k Hn' Hd Hk. rewrite Gi0 by auto. rewrite Hi by auto.
  cbn [einsum_u usel upar].
  pose proof (Nat.div_mod d 2 ltac:(lia)). pose proof (Nat.mod_upper_bound d 2 ltac:(lia)).
  destruct (Nat.eqb_spec (d mod 2) 0), (Nat.eqb_spec d (2 * (d / 2))); auto; lia.
Qed.

(** ** mixing *)
Lemma dmixing_select_ok L cd c N T : mixing_ok L -> T <> 0 -> c_tsum c = T -> ohctx cd c N 1 (sout L) 1 ->
  exists lw, dmixing_select L cd = Ok lw /\ lrows lw N 1 (sin L) (fun n d k => mixing_w L T (get (c_out c) [n; d]) k).
Proof.
  intros (Hs & Hf & Hl) HT Ec ((_ & _ & Gi & _ & _) & Hn & (So & Go) & _ & _ & Et).
  unfold dmixing_select. rewrite Hn, Et, Ec. unfold mixing_weight_shape in Hl. rewrite Hf in *. unfold mixing_w.
  set (S := sin L) in *. set (O := sout L) in *.
  destruct (logits L) as [sl gl], (d_out cd) as [so go].
  pose proof Hl as [Hsl Hfin]. cbn [shape get] in Hsl, Hfin, So, Go. subst sl so. cbn [shape get].
  unfold unsqueeze. cbn [shape insert_nth]. ioh. rewrite eqb_list_refl. cbn [assert bind].
  match goal with |- context [logits_to_log_weights ?t] => set (t0 := t) end.
  eexists. split; [reflexivity|]. split; [reflexivity|].
  intros n d k Hn' Hd Hk. split; [apply wsoft_pos; auto|].
  apply (lw_rows t0 N 1 S T (fun n d k => gl [0%nat; get (c_out c) [n; d]; k])); auto.
  intros n' d' k' Hn'' Hd' Hk'. assert (d' = 0)%nat by lia. subst d'.
  pose proof (Gi n' 0%nat Hn'' Hd') as Hin.
  assert (F: forall o, (o < O)%nat -> isfin (gl [0%nat; o; k']) = true).
  { intros o Ho. apply (Hfin [0%nat; o; k']). simpl. auto 10. }
  split; [|apply F; auto].
  unfold t0. unfold size. cbn [get shape nth insert_nth].
  rewrite (nsum_ext _ _ (fun o => nmul (gl [0%nat; o; k']) (hot o (get (c_out c) [n'; 0%nat])))).
  - apply (nsum_hot O (fun o => gl [0%nat; o; k'])); auto.
  - intros o Ho. gets. rewrite Go by auto. reflexivity.
Qed.
Theorem dmixing_dsampler L N ca v T u cd c : mixing_ok L -> nrep L = 1%nat -> T <> 0 -> mixing_cached L N ca v ->
  ohctx cd c N 1 (sout L) 1 -> c_tsum c = T ->
  exists lw kt oh, dmixing_sample L ca u cd = Ok (dset_out cd oh) /\
    lrows lw N 1 (sin L) (fun n d r => mixpost L T (v n) (get (c_out c) [n; d]) r) /\
    shape kt = [N; 1]%nat /\ picks lw u (c_mpe c) kt N 1 (sin L) /\ onehot oh N 1 (sin L) kt.
Proof.
  intros Hok Hnr HT Hca Hc Ec. pose proof Hc as (Gc & Hn & (So & Go) & Hr & Em & Et).
  pose proof Gc as (_ & _ & Gi & _ & _). pose proof Hok as (HS & Hf & Hl).
  destruct (dmixing_select_ok L cd c N T Hok HT Ec Hc) as (lw0 & Esel & W).
  assert (Q: exists lw, match ca with None => Ok lw0 | Some x => dmixing_condition L cd x lw0 end = Ok lw /\
     lrows lw N 1 (sin L) (fun n d r => mixpost L T (v n) (get (c_out c) [n; d]) r)).
  { destruct Hca as [[-> ->]|(x & -> & Hx & Gx)].
    - eexists. split; [reflexivity|]. eapply lrows_ext; [exact W|]. intros n d k Hn' Hd Hk. unfold mixpost.
      rewrite (rsum_ext _ _ (mixing_w L T (get (c_out c) [n; d]))) by (intros; ring).
      unfold mixing_w at 3. rewrite wsoft_sum by auto. field.
    - unfold dmixing_condition. rewrite Hn.
      assert (V1: exists p, view [N; 1; sout L; 1]%nat (d_out cd) = Ok p /\ shape p = [N; 1; sout L; 1]%nat /\
        forall n o, (n < N)%nat -> (o < sout L)%nat -> get p [n; 0; o; 0]%nat = hot o (get (c_out c) [n; 0%nat])).
      { unfold view. rewrite So. cbn [numel]. rewrite !Nat.mul_1_l, !Nat.mul_1_r, Nat.eqb_refl.
        eexists. split; [reflexivity|]. split; [reflexivity|]. intros n o Hn' Ho. cbn [get].
        replace (ravel [N; 1; sout L; 1]%nat [n; 0; o; 0]%nat) with (ravel [N; 1; sout L]%nat [n; 0; o]%nat) by (cbn [ravel numel]; lia).
        rewrite unravel_ravel by (simpl; auto). auto. }
      destruct V1 as (p & Ep & Sp & Gp). rewrite Ep. cbn [bind].
      destruct p as [sp gp], x as [sx gx]. cbn [shape get] in Sp, Gp, Hx, Gx. subst sp sx. ioh.
      apply (renormalize_rows _ _ N 1 (sin L) (fun n d k => mixing_w L T (get (c_out c) [n; d]) k) (fun n d k => v n (get (c_out c) [n; d]) k)); auto.
      split; [reflexivity|]. intros n d k Hn' Hd Hk. assert (d = 0)%nat by lia. subst d. pose proof (Gi n 0%nat Hn' Hd).
      unfold size. cbn [get shape nth insert_nth].
      rewrite (nsum_ext _ _ (fun o => nmul (gx [n; 0%nat; o; k]) (hot o (get (c_out c) [n; 0%nat])))).
      + rewrite (nsum_hot (sout L) (fun o => gx [n; 0%nat; o; k])); auto. intros o Ho. destruct (Gx n o k) as [_ ->]; auto.
      + intros o Ho. gets. rewrite Gp by auto. reflexivity. }
  destruct Q as (lw & Elw & Hlw).
  destruct (SIMPLE_ok u (d_mpe cd) lw N 1 (sin L) _ HS Hlw) as (oh & kt & Es & Sk & Hoh & Hpk).
  exists lw, kt, oh. split.
  { unfold dmixing_sample. rewrite Hf, Hnr. apply (dsample_with_eq _ _ _ _ _ _ _ _ _ lw0 lw oh (dcheck_ok _ _ _ _ _ _ Hc) Esel Elw).
    exact Es. }
  rewrite <- Em. auto.
Qed.

Lemma drootprod_ok D S N Rn cd c : ohctx cd c N 1 S Rn ->
  exists oh, drootprod_sample D cd = Ok (dset_out cd oh) /\
    forall i, (forall n d, (n < N)%nat -> (d < D)%nat -> get i [n; d] = get (c_out c) [n; 0%nat]) -> onehot oh N D S i.
Proof.
  intros (Gc & Hn & (So & Go) & Hr & Em & Et). unfold drootprod_sample, repeat_t, dim. rewrite So. cbn [length repeat set_nth Nat.eqb].
  cbn [bind map2]. eexists. split; [reflexivity|]. intros i Hi. split.
  - cbn [shape]. f_equal; [lia|]. f_equal; [lia|]. f_equal. lia.
  - intros n d k Hn' Hd Hk. cbn [get map2]. rewrite Nat.mod_small by auto. rewrite Nat.mod_1_r. rewrite (Nat.mod_small k) by auto.
    rewrite Go by auto. rewrite Hi by auto. reflexivity.
Qed.

(** * Every choice of the differentiable mode is a possible choice of the index mode *)
Section Reach.
Context {V : Type}.
Lemma draws_intro (supp : list nat -> V -> Prop) {A} (ds : list (M V A)) : forall l, length l = length ds ->
  (forall i dd da, (i < length ds)%nat -> outcome supp (nth i ds dd) (Ok (nth i l da))) -> outcome supp (draws ds) (Ok l).
Proof.
  induction ds as [|d ds IH]; intros [|a l] Hl H; try discriminate.
  - constructor.
  - cbn [draws]. apply (outcome_bind_intro _ _ _ a).
    + apply (H 0%nat (Fail GenericExc) a). simpl. lia.
    + apply (outcome_bind_intro _ _ _ l); [|constructor]. apply IH; [simpl in Hl; lia|].
      intros i dd da Hi. apply (H (S i) dd da). simpl. lia.
Qed.
Lemma draw_fun_intro (supp : list nat -> V -> Prop) {A} (dflt : A) s : forall (d : list nat -> M V A) (g : list nat -> A),
  (forall idx, inb s idx -> outcome supp (d idx) (Ok (g idx))) ->
  exists g', outcome supp (draw_fun dflt s d) (Ok g') /\ forall idx, inb s idx -> g' idx = g idx.
Proof.
  induction s as [|n s IH]; intros d g H; cbn [draw_fun].
  - exists (fun _ => g []). split.
    + apply (outcome_bind_intro _ _ _ (g [])); [apply H; exact I|constructor].
    + intros [|] X; [reflexivity|destruct X].
  - assert (X: exists fs : list (list nat -> A), length fs = n /\
      outcome supp (draws (map (fun i => draw_fun dflt s (fun idx => d (i :: idx))) (seq 0 n))) (Ok fs) /\
      forall i idx, (i < n)%nat -> inb s idx -> nth i fs (fun _ => dflt) idx = g (i :: idx)).
    { assert (Y: forall m k, (k + m = n)%nat -> exists fs : list (list nat -> A), length fs = m /\
        outcome supp (draws (map (fun i => draw_fun dflt s (fun idx => d (i :: idx))) (seq k m))) (Ok fs) /\
        forall i idx, (i < m)%nat -> inb s idx -> nth i fs (fun _ => dflt) idx = g ((k + i)%nat :: idx)).
      { induction m as [|m IHm]; intros k Hk.
        - exists []. split; [reflexivity|]. split; [constructor|]. intros; lia.
        - destruct (IHm (S k)) as (fs & Lf & Of & Gf); [lia|].
          destruct (IH (fun idx => d (k :: idx)) (fun idx => g (k :: idx))) as (g' & Og & Gg).
          { intros idx Hi. apply H. cbn [inb]. split; [lia|auto]. }
          exists (g' :: fs). split; [simpl; congruence|]. split.
          + cbn [seq map draws]. apply (outcome_bind_intro _ _ _ g'); auto. apply (outcome_bind_intro _ _ _ fs); auto. constructor.
          + intros [|i] idx Hi Hb; cbn [nth].
            * rewrite Gg by auto. rewrite Nat.add_0_r. reflexivity.
            * rewrite Gf by (auto; lia). do 2 f_equal. lia. }
      destruct (Y n 0%nat eq_refl) as (fs & L1 & L2 & L3). exists fs. auto. }
    destruct X as (fs & _ & Of & Gf). eexists. split.
    + apply (outcome_bind_intro _ _ _ fs); [exact Of|constructor].
    + intros [|i idx] Hb; [destruct Hb|]. destruct Hb as [Hi Hb]. apply Gf; auto.
Qed.

Variable supp : list nat -> V -> Prop.
Lemma choose_sim c lw lwd u kt N D K w : (0 < K)%nat -> lrows lw N D K w -> lrows lwd N D K w ->
  (forall n d, (n < N)%nat -> (d < D)%nat -> rsum K (w n d) = 1) -> picks lwd u (c_mpe c) kt N D K ->
  exists t, outcome supp (@choose V c lw) (Ok t) /\ (c_mpe c = true -> @choose V c lw = Ret t) /\ shape t = [N; D] /\
    forall n d, (n < N)%nat -> (d < D)%nat -> get t [n; d] = get kt [n; d].
Proof.
  intros HK Hw Hwd Hs Hp. unfold choose. destruct (c_mpe c) eqn:Hm.
  - exists (targmax 2 lw). split; [constructor|]. split; [auto|]. pose proof Hw as [Sw Gw]. pose proof Hwd as [_ Gwd].
    unfold targmax, reduce. rewrite Sw. split; [reflexivity|]. intros n d Hn Hd. cbn [get]. unfold size. rewrite Sw. cbn [nth insert_nth].
    destruct (Hp n d Hn Hd) as (_ & E & _). rewrite E by auto. apply nargmax_ext. intros k Hk.
    destruct (Gw n d k) as [_ ->]; auto. destruct (Gwd n d k) as [_ ->]; auto.
  - pose proof Hw as [Sw _]. unfold categorical. rewrite Sw. cbn [removelast].
    destruct (existsb _ _) eqn:E.
    { exfalso. apply existsb_exists in E as (idx & Hin & E). apply in_all_idx in Hin. inbs.
      rewrite (cat_row_rows _ N D K w) in E by auto. apply existsb_exists in E as (z & Hz & Hz2).
      apply in_map_iff in Hz as (k & <- & _). discriminate. }
    destruct (draw_fun_intro supp 0%nat [N; D] (fun idx => Cat (cat_row lw idx) (fun i => Ret i)) (get kt)) as (g' & Og & Gg).
    { intros idx Hb. inbs. econstructor; [|constructor].
      rewrite (cat_row_rows _ N D K w) by auto. rewrite map_length, seq_length. apply Hp; auto. }
    exists (mkT [N; D] g'). split; [|split; [discriminate|split; [reflexivity|]]].
    + unfold draw_tensor. apply (outcome_bind_intro _ _ _ g'); [exact Og|constructor].
    + intros n d Hn Hd. apply Gg. simpl; auto.
Qed.

(** A differentiable step: it succeeds, and its result encodes a possible result of the index step
    (the result, when taking the mode). *)
Definition dsim (f : sctx -> M V sctx) (df : dctx -> res dctx) (N Rn Din Sin Dout Sout : nat) : Prop :=
  forall cd c, ohctx cd c N Dout Sout Rn -> c_tsum c <> 0 ->
  exists cd' c', df cd = Ok cd' /\ outcome supp (f c) (Ok c') /\ (c_mpe c = true -> f c = Ret c') /\
    ohctx cd' c' N Din Sin Rn /\ c_mpe c' = c_mpe c /\ c_tsum c' = c_tsum c.

Lemma sampler_dsim f df u N Rn (U : R -> ulayer) v D S D' S' :
  (forall T, T <> 0 -> uwf Rn (U T) /\ (0 < uK (U T))%nat /\ uDin (U T) = D /\ uSin (U T) = S /\
     uDout (U T) = D' /\ uSout (U T) = S' /\ sampler f N Rn (U T) v T /\ dsampler df N Rn (U T) v T) ->
  (forall n, (n < N)%nat -> vpos D S Rn (v n)) -> dsim f (df u) N Rn D S D' S'.
Proof.
  intros H Hv cd c Hc HT. destruct (H (c_tsum c) HT) as (Hw & HK & <- & <- & <- & <- & Hs & Hd). set (ul := U (c_tsum c)) in *.
  pose proof Hc as (Gc & Hn & Ho & Hr & Em & Et). pose proof Gc as (Hcn & So & Go & Sr & Gr).
  destruct (Hs c Gc eq_refl) as (lw & g & Ef & Hlw & Hg).
  destruct (Hd u cd c Hc eq_refl) as (lwd & kt & oh & Edf & Hlwd & Sk & Hp & Hoh).
  assert (HS1: forall n d, (n < N)%nat -> (d < uDout ul)%nat ->
     rsum (uK ul) (fun k => upost ul (v n) d (get (c_out c) [n; d]) (get (c_rep c) [n]) k) = 1).
  { intros n d Hn' Hd'. apply (upost_sum Rn); auto. }
  destruct (choose_sim c lw lwd u kt N _ _ _ HK Hlw Hlwd HS1 Hp) as (t & Ot & Mt & St & Gt).
  assert (Gk: forall n d, (n < N)%nat -> (d < uDout ul)%nat -> (get t [n; d] < uK ul)%nat).
  { intros n d Hn' Hd'. rewrite Gt by auto. apply Hp; auto. }
  destruct (Hg t St Gk) as (i & Ei & Si & Gi).
  exists (dset_out cd oh), (set_out c i). split; [exact Edf|]. rewrite Ef. split; [|split; [|split; [|split; reflexivity]]].
  - apply (outcome_bind_intro _ _ _ t); [exact Ot|]. rewrite Ei. constructor.
  - intros Hm. rewrite (Mt Hm). exact Ei.
  - assert (Pr: forall d, (d < uDin ul)%nat -> (upar ul d < uDout ul)%nat) by (intros; apply (uw_par _ _ Hw); auto).
    split; [|split; [exact Hn|split; [|split; [exact Hr|split; auto]]]].
    + split; [exact Hcn|]. split; [exact Si|]. split; [|split; auto].
      intros n d Hn' Hd'. cbn [set_out c_out]. rewrite Gi by auto. pose proof (Pr d Hd').
      apply (uw_sel _ _ Hw); auto. apply (uw_kids _ _ Hw); auto.
    + cbn [dset_out d_out set_out c_out]. apply Hoh. intros n d' Hn' Hd'. rewrite Gi by auto. f_equal. apply Gt; auto.
Qed.
Lemma dsim_ext f f' df df' N Rn D S D' S' : (forall cd c, ohctx cd c N D' S' Rn -> f c = f' c /\ df cd = df' cd) ->
  dsim f df N Rn D S D' S' -> dsim f' df' N Rn D S D' S'.
Proof. intros E L cd c Hc HT. destruct (E cd c Hc) as [<- <-]. apply L; auto. Qed.
Lemma dsim_comp f1 f2 g1 g2 N Rn D0 S0 D1 S1 D2 S2 : dsim f1 g1 N Rn D1 S1 D2 S2 -> dsim f2 g2 N Rn D0 S0 D1 S1 ->
  dsim (fun c => mbind (f1 c) f2) (fun c => x <- g1 c ;; g2 x) N Rn D0 S0 D2 S2.
Proof.
  intros L1 L2 cd c Hc HT. destruct (L1 cd c Hc HT) as (cd1 & c1 & E1 & O1 & M1 & G1 & Q1 & T1).
  destruct (L2 cd1 c1 G1) as (cd2 & c2 & E2 & O2 & M2 & G2 & Q2 & T2); [rewrite T1; auto|].
  exists cd2, c2. rewrite E1. cbn [bind]. split; auto. split; [|split; [|split; [auto|split; congruence]]].
  - apply (outcome_bind_intro _ _ _ c1); auto.
  - intros Hm. rewrite (M1 Hm). cbn [mbind]. apply M2. congruence.
Qed.

Lemma dlayer_sim Rn D S l N ca v u : layer_ok Rn D S l -> (0 < N)%nat -> layer_cached l N ca v ->
  (forall n, (n < N)%nat -> vpos D S Rn (v n)) ->
  dsim (layer_sample l ca) (dlayer_sample l ca u) N Rn D S (layer_dout l) (layer_sout S l).
Proof.
  intros Hok HN Hca Hv.
  destruct l as [L|L|L|L|D']; cbn [layer_ok layer_us layer_dout layer_sout layer_sample dlayer_sample layer_cached] in *.
  - destruct Hok as [Hok (<- & <- & <-)]. pose proof Hok as (H1 & _ & _ & _ & H2 & _).
    apply (sampler_dsim _ (deinsum_sample L ca) u N (nrep L) (einsum_u L) v); auto. intros T HT. split; [apply einsum_u_wf; auto|]. split; [cbn; nia|].
    do 4 (split; [reflexivity|]). split; [apply einsum_sampler; auto|apply deinsum_dsampler; auto].
  - destruct Hok as [Hok (<- & <- & <-)]. pose proof Hok as (H1 & _ & _).
    apply (sampler_dsim _ (dlinsum_sample L ca) u N (nrep L) (linsum_u L) v); auto. intros T HT. split; [apply linsum_u_wf; auto|]. split; [exact H1|].
    do 4 (split; [reflexivity|]). split; [apply linsum_sampler; auto|apply dlinsum_dsampler; auto].
  - destruct Hok as [Hok (He & <- & <- & <-)]. pose proof Hok as (H1 & _ & _).
    apply (dsim_ext (fun c => mbind (Ret (pair_ctx c)) (linsum2_core L ca)) _ (fun c => x <- Ok (dpair_ctx c) ;; dlinsum2_core L ca u x)).
    { intros cd c Hc. cbn [mbind bind]. split.
      - symmetry. eapply linsum2_sample_eq; eauto. apply Hc.
      - symmetry. eapply dlinsum2_sample_eq; eauto. }
    apply (dsim_comp (fun c => Ret (pair_ctx c)) _ (fun c => Ok (dpair_ctx c)) _ N (nrep L) (nf L) (sin L) (nf L) (sout L)).
    + intros cd c Hc HT. exists (dpair_ctx cd), (pair_ctx c). split; [auto|]. split; [constructor|]. split; [auto|].
      split; [apply dpair_good; auto|]. split; reflexivity.
    + apply (sampler_dsim _ (dlinsum2_core L ca) u N (nrep L) (sum_u L) v); auto. intros T HT. split; [apply sum_u_wf; auto|]. split; [exact H1|].
      do 4 (split; [reflexivity|]). split; [apply linsum2_sampler; auto|apply dlinsum2_dsampler; auto].
  - destruct Hok as [Hok (<- & <- & <-)]. pose proof Hok as (H1 & _).
    apply (sampler_dsim _ (dsum_sample L ca) u N (nrep L) (sum_u L) v); auto. intros T HT. split; [apply sum_u_wf; auto|]. split; [exact H1|].
    do 4 (split; [reflexivity|]). split; [apply sum_sampler; auto|apply dsum_dsampler; auto].
  - subst D'. intros cd c Hc HT. pose proof Hc as (Gc & Hn & _ & Hr & Em & Et).
    destruct (@rootprod_sample_ok V D S N Rn c Gc) as (c' & E & G & H1 & H2 & H3 & H4).
    destruct (drootprod_ok D S N Rn cd c Hc) as (oh & Eo & Ho).
    change (layer_sample (LRoot D) ca c) with (@rootprod_sample V D c). exists (dset_out cd oh), c'. split; [exact Eo|]. split; [rewrite E; constructor|]. split; [auto|].
    split; [|split; auto]. split; [exact G|]. split; [exact Hn|]. split; [apply Ho; auto|].
    rewrite H1, H2, H3. split; [exact Hr|]. split; auto.
Qed.
Lemma dsample_layers_sim Rn us ls : forall j D S D' S' N cs v T, layers_ok Rn ls D S D' S' -> (0 < N)%nat ->
  layers_cached T Rn D S ls cs N v -> (forall n, (n < N)%nat -> vpos D S Rn (v n)) ->
  dsim (sample_layers (combine ls cs)) (dsample_layers us (combine ls cs) j) N Rn D S D' S'.
Proof.
  induction ls as [|l ls IH]; intros j D S D' S' N cs v T Hok HN Hca Hv.
  - destruct Hok as [<- <-]. destruct cs; [|destruct Hca]. cbn [combine]. intros cd c Hc HT. exists cd, c. cbn [sample_layers dsample_layers].
    split; auto. split; [constructor|]. auto.
  - destruct cs as [|ca cs]; [destruct Hca|]. cbn [layers_ok layers_cached combine] in *.
    destruct Hok as [H1 H2]. destruct Hca as [(v' & Hc1 & Ev) Hc2].
    apply (dsim_ext (fun c => mbind (sample_layers (combine ls cs) c) (layer_sample l ca)) _
       (fun c => x <- dsample_layers us (combine ls cs) (Datatypes.S j) c ;; dlayer_sample l ca (us (2 + j)%nat) x)); [split; reflexivity|].
    pose proof (layer_chain T _ _ _ _ H1) as C1.
    eapply dsim_comp.
    + eapply IH; [exact H2|auto|exact Hc2|]. intros n Hn. eapply evals_pos; [exact C1|auto].
    + apply (dlayer_sim Rn D S l N ca v'); auto.
      intros n Hn d s r Hd Hs Hr. rewrite <- Ev; auto. apply Hv; auto.
Qed.
End Reach.

(** * Leaves *)
Section LeafD.
Context {V : Type}.
Variable lf : bleaf V.
(** As [routes] in RefLeafS, for float draws. *)
Definition droutes (k : tensor num -> res (tensor num)) (c : sctx) (N : nat) (grp : nat -> nat -> nat) : Prop :=
  forall s, shape s = [N; 1; lf_C lf; lf_F lf; lf_L lf; lf_R lf; 1]%nat ->
  (forall idx, isfin (get s idx) = true) ->
  exists t, k s = Ok t /\ shape t = [N; lf_C lf; lf_F lf] /\
  forall n ch f, (n < N)%nat -> (ch < lf_C lf)%nat -> (f < lf_F lf)%nat ->
    get t [n; ch; f] = get s [n; 0; ch; f; get (c_out c) [n; grp (get (c_rep c) [n]) f]; get (c_rep c) [n]; 0]%nat.

Lemma rep6 rep N Rn i : (0 < Rn)%nat -> hotrep rep N Rn i -> exists r', view_infer [] [1; 1; 1; Rn; 1]%nat rep = Ok r' /\ shape r' = [N; 1; 1; 1; Rn; 1]%nat /\
  forall n r, (n < N)%nat -> (r < Rn)%nat -> get r' [n; 0; 0; 0; r; 0]%nat = hot r (get i [n]).
Proof.
  intros HR [Sr Gr]. unfold view_infer. cbn [numel]. destruct (Nat.eqb_spec (1 * (1 * (1 * (1 * (Rn * (1 * 1)))))) 0) as [Z|_]; [lia|].
  rewrite Sr. cbn [numel app].
  replace (N * (Rn * 1) / (1 * (1 * (1 * (1 * (Rn * (1 * 1)))))))%nat with N by (apply Nat.div_unique with (r := 0%nat); [lia|ring]).
  unfold view. rewrite Sr. cbn [numel]. rewrite !Nat.mul_1_l, !Nat.mul_1_r, Nat.eqb_refl.
  eexists. split; [reflexivity|]. split; [reflexivity|]. intros n r Hn Hr. cbn [get].
  replace (ravel [N; 1; 1; 1; Rn; 1]%nat [n; 0; 0; 0; r; 0]%nat) with (ravel [N; Rn] [n; r]) by (cbn [ravel numel]; lia).
  rewrite unravel_ravel by (simpl; auto). auto.
Qed.

Lemma dleaf_select_rep (s : tensor num) N rep i : (0 < lf_R lf)%nat -> hotrep rep N (lf_R lf) i ->
  (forall n, (n < N)%nat -> (get i [n] < lf_R lf)%nat) ->
  shape s = [N; 1; lf_C lf; lf_F lf; lf_L lf; lf_R lf; 1]%nat -> (forall idx, isfin (get s idx) = true) ->
  exists t, (let s := squeeze 1 s in r1 <- view_infer [] [1; 1; 1; size s 4; 1]%nat rep ;; index_one_hot 4 s r1) = Ok t /\
    shape t = [N; lf_C lf; lf_F lf; lf_L lf; 1]%nat /\
    forall n ch f l, (n < N)%nat -> (ch < lf_C lf)%nat -> (f < lf_F lf)%nat -> (l < lf_L lf)%nat ->
      get t [n; ch; f; l; 0]%nat = get s [n; 0; ch; f; l; get i [n]; 0]%nat.
Proof.
  intros HR Hrep Hi Hs Hf. destruct (rep6 rep N _ i HR Hrep) as (r' & Er & Sr & Gr).
  destruct s as [ss gs]. cbn [shape get] in Hs, Hf. subst ss. cbn zeta. rewrite squeeze_1 by reflexivity. cbn [remove_nth].
  unfold size at 1. cbn [shape nth]. rewrite Er. cbn [bind]. destruct r' as [sr gr]. cbn [shape get] in Sr, Gr. subst sr.
  ioh. eexists. split; [reflexivity|]. split; [reflexivity|]. intros n ch f l Hn Hc Hff Hl.
  unfold size. cbn [get shape nth insert_nth].
  rewrite (nsum_ext _ _ (fun r => nmul (gs [n; 0; ch; f; l; r; 0]%nat) (hot r (get i [n])))).
  - apply (nsum_hot (lf_R lf) (fun r => gs [n; 0; ch; f; l; r; 0]%nat)); auto.
  - intros r Hr. gets. rewrite Gr by auto. reflexivity.
Qed.
Lemma dleaf_select_none_ok (s : tensor num) N rep i : (0 < lf_R lf)%nat -> hotrep rep N (lf_R lf) i ->
  (forall n, (n < N)%nat -> (get i [n] < lf_R lf)%nat) ->
  shape s = [N; 1; lf_C lf; lf_F lf; lf_L lf; lf_R lf; 1]%nat -> (forall idx, isfin (get s idx) = true) ->
  exists t, dleaf_select s None rep = Ok t /\ shape t = [N; lf_C lf; lf_F lf; lf_L lf] /\
    forall n ch f l, (n < N)%nat -> (ch < lf_C lf)%nat -> (f < lf_F lf)%nat -> (l < lf_L lf)%nat ->
      get t [n; ch; f; l] = get s [n; 0; ch; f; l; get i [n]; 0]%nat.
Proof.
  intros HR Hrep Hi Hs Hf. destruct (dleaf_select_rep s N rep i HR Hrep Hi Hs Hf) as (t & Et & St & Gt).
  unfold dleaf_select. unfold size at 1. rewrite Hs. cbn [nth Nat.eqb assert guard bind]. cbn zeta in Et.
  destruct (view_infer [] _ rep) as [r1|]; [|discriminate]. cbn [bind] in Et |- *. rewrite Et. cbn [bind].
  unfold dim. rewrite St. cbn [length]. change (5 - 1)%nat with 4%nat. destruct t as [st gt]. cbn [shape get] in St, Gt. subst st.
  rewrite squeeze_1 by reflexivity. cbn [remove_nth]. eexists. split; [reflexivity|]. split; [reflexivity|].
  intros n ch f l Hn Hc Hff Hl. cbn [get insert_nth]. auto.
Qed.

Lemma view_infer_4 (rep : tensor num) N Rn i : (0 < N)%nat -> hotrep rep N Rn i ->
  exists r', view_infer [N; 1; 1]%nat [] rep = Ok r' /\ shape r' = [N; 1; 1; Rn]%nat /\
  forall n r, (n < N)%nat -> (r < Rn)%nat -> get r' [n; 0; 0; r]%nat = hot r (get i [n]).
Proof.
  intros HN Hrep. pose proof Hrep as [Sr _]. destruct (rep4 rep N Rn i Hrep) as (r' & Er & Hr'). exists r'. split; auto.
  unfold view_infer. cbn [numel]. destruct (Nat.eqb_spec (N * (1 * (1 * 1)) * 1) 0) as [Z|_]; [lia|].
  rewrite Sr. cbn [numel app].
  replace (N * (Rn * 1) / (N * (1 * (1 * 1)) * 1))%nat with Rn by (apply Nat.div_unique with (r := 0%nat); [lia|ring]).
  exact Er.
Qed.
Lemma dfact_index_ok Fo sc grp cd c N (t : tensor num) : (0 < N)%nat -> scopes_grp sc (lf_F lf) Fo (lf_R lf) grp ->
  ohctx cd c N Fo (lf_L lf) (lf_R lf) -> shape t = [N; lf_C lf; lf_F lf; lf_L lf] ->
  (forall n ch f l, (n < N)%nat -> (ch < lf_C lf)%nat -> (f < lf_F lf)%nat -> (l < lf_L lf)%nat -> isfin (get t [n; ch; f; l]) = true) ->
  exists y, dfact_index lf sc (d_n cd) (d_out cd) (d_rep cd) t = Ok y /\ shape y = [N; lf_C lf; lf_F lf] /\
  forall n ch f, (n < N)%nat -> (ch < lf_C lf)%nat -> (f < lf_F lf)%nat ->
    get y [n; ch; f] = get t [n; ch; f; get (c_out c) [n; grp (get (c_rep c) [n]) f]].
Proof.
  intros HN (Ssc & Gl & Gsc) ((En & Soc & Goc & Src & Grc) & Hn & (So & Go) & Hrep & _ & _) Ht Hfin. unfold dfact_index. rewrite Hn, Ht, eqb_list_refl. cbn [assert guard bind].
  destruct (view_infer_4 _ N _ _ HN Hrep) as (r' & Er & Sr & Gr). rewrite Er. cbn [bind].
  destruct t as [st gt], sc as [ssc gsc], (d_out cd) as [so go], r' as [sr gr]. cbn [shape get] in Ht, Hfin, Ssc, Gsc, So, Go, Sr, Gr. subst.
  unfold tmap, unsqueeze. cbn [shape insert_nth get]. ioh. ioh. ioh.
  eexists. split; [reflexivity|]. split; [reflexivity|]. intros n ch f Hn' Hc Hf.
  pose proof (Grc n Hn') as Hr. assert (Hg: (grp (get (c_rep c) [n]) f < Fo)%nat) by auto.
  pose proof (Goc n _ Hn' Hg) as Hl.
  unfold size. cbn [get shape nth insert_nth].
  rewrite (nsum_ext _ _ (fun l => nmul (gt [n; ch; f; l]) (hot l (get (c_out c) [n; grp (get (c_rep c) [n]) f])))).
  { apply (nsum_hot (lf_L lf) (fun l => gt [n; ch; f; l])); auto. }
  intros l Hl'. gets. f_equal.
  rewrite (nsum_ext _ _ (fun o => nmul (hot l (get (c_out c) [n; o])) (hot o (grp (get (c_rep c) [n]) f)))).
  { apply (nsum_hot Fo (fun o => hot l (get (c_out c) [n; o]))); auto. }
  intros o Ho. gets. rewrite Go by auto. f_equal.
  rewrite (nsum_ext _ _ (fun r => nmul (Fin (INR (gsc [f; o; r]))) (hot r (get (c_rep c) [n])))).
  { rewrite (nsum_hot (lf_R lf) (fun r => Fin (INR (gsc [f; o; r])))); auto.
    rewrite Gsc by auto. unfold hot. rewrite Nat.eqb_sym. destruct (o =? _); reflexivity. }
  intros r Hr'. gets. rewrite Gr by auto. reflexivity.
Qed.
Lemma dfact_routes Fo sc grp cd c N : (0 < N)%nat -> (0 < lf_R lf)%nat -> scopes_grp sc (lf_F lf) Fo (lf_R lf) grp ->
  ohctx cd c N Fo (lf_L lf) (lf_R lf) ->
  droutes (fun s => s <- dleaf_select s None (d_rep cd) ;; dfact_index lf sc (d_n cd) (d_out cd) (d_rep cd) s) c N grp.
Proof.
  intros HN HR Hsc Hc s Hs Hf. pose proof Hc as ((_ & _ & Go & _ & Gr) & _ & _ & Hrep & _).
  destruct (dleaf_select_none_ok s N _ _ HR Hrep Gr Hs Hf) as (t & -> & St & Gt). cbn [bind].
  destruct (dfact_index_ok Fo sc grp cd c N t HN Hsc Hc St) as (y & -> & Sy & Gy).
  { intros. rewrite Gt by auto. apply Hf. }
  exists y. split; auto. split; auto. intros n ch f Hn Hch Hff. rewrite Gy by auto. destruct Hsc as (_ & Gl & _). apply Gt; auto.
Qed.

Lemma dsimple_index_ok Fo pl cd c N Rn (t : tensor num) : (0 < Fo)%nat -> is_perm pl (lf_F lf + simple_dummy (lf_F lf) Fo) ->
  ohctx cd c N Fo (lf_L lf) Rn -> shape t = [N; lf_C lf; lf_F lf; lf_L lf] ->
  (forall n ch f l, (n < N)%nat -> (ch < lf_C lf)%nat -> (f < lf_F lf)%nat -> (l < lf_L lf)%nat -> isfin (get t [n; ch; f; l]) = true) ->
  exists y, dsimple_index lf Fo (vec (argsort pl)) (d_n cd) (d_out cd) t = Ok y /\ shape y = [N; lf_C lf; lf_F lf] /\
  forall n ch f, (n < N)%nat -> (ch < lf_C lf)%nat -> (f < lf_F lf)%nat ->
    get y [n; ch; f] = get t [n; ch; f; get (c_out c) [n; simple_sgrp (lf_F lf) Fo pl f]].
Proof.
  intros HFo Hp ((En & Soc & Goc & Src & Grc) & Hn & (So & Go) & _) Ht Hfin. unfold dsimple_index. rewrite Hn, Ht, eqb_list_refl. cbn [assert guard bind].
  destruct t as [st gt], (d_out cd) as [so go]. cbn [shape get] in Ht, Hfin, So, Go. subst st so.
  set (F := lf_F lf) in *. set (cr := simple_card F Fo). set (dm := simple_dummy F Fo) in *.
  assert (ET: (F + dm = cr * Fo)%nat) by (apply simple_total; auto).
  set (L := lf_L lf) in *.
  unfold size. unfold unsqueeze at 1 2 3 4. cbn [insert_nth shape nth].
  rewrite expand_ok by expands. cbn [bind shape].
  unfold view. cbn [shape numel].
  destruct (Nat.eqb_spec (N * ((F + dm) * (L * 1))) (N * (cr * (Fo * (L * 1))))) as [_|Z].
  2:{ exfalso. apply Z. rewrite ET. ring. }
  cbn [bind]. unfold index_dim, vec. cbn [shape]. rewrite argsort_length, (is_perm_length _ _ Hp).
  unfold size. cbn [shape nth].
  pose proof (argsort_perm _ _ Hp) as Hq.
  replace (forallb _ _) with true.
  2:{ symmetry. apply forallb_forall. intros i Hi. apply in_seq0 in Hi. cbn [get hd]. apply Nat.ltb_lt. eapply is_perm_lt; eauto. }
  cbn [bind set_nth].
  set (o2 := mkT [N; (F + dm)%nat; L] _).
  assert (G2: forall n f l, (n < N)%nat -> (f < F + dm)%nat -> (l < L)%nat ->
    get o2 [n; f; l] = hot l (get (c_out c) [n; simple_sgrp F Fo pl f])).
  { intros n f l Hn' Hf Hl. unfold o2. cbn [get set_nth nth hd].
    set (k := nth f (argsort pl) 0%nat).
    assert (Hk: (k < cr * Fo)%nat) by (unfold k; rewrite <- ET; eapply is_perm_lt; eauto).
    assert (Hk1: (k / Fo < cr)%nat) by (apply Nat.div_lt_upper_bound; lia).
    assert (Hk2: (k mod Fo < Fo)%nat) by (apply Nat.mod_upper_bound; lia).
    replace (ravel [N; (F + dm)%nat; L] [n; k; l]) with (ravel [N; cr; Fo; L] [n; k / Fo; k mod Fo; l]%nat).
    2:{ cbn [ravel numel]. rewrite ET. pose proof (Nat.div_mod k Fo). nia. }
    rewrite unravel_ravel by (cbn [inb]; auto). rewrite bproj_same by reflexivity. cbn [bidx remove_nth]. clamps. apply Go; auto. }
  assert (S2: shape o2 = [N; (F + dm)%nat; L]) by reflexivity. clearbody o2.
  set (o3 := if (0 <? dm)%nat then _ else _).
  assert (S3: shape o3 = [N; F; L] /\ forall idx, get o3 idx = get o2 idx).
  { unfold o3. destruct (Nat.ltb_spec 0 dm).
    - split; [|reflexivity]. unfold take, size. cbn [shape]. rewrite S2. cbn [nth set_nth].
      replace (Nat.min (F + dm - dm) (F + dm)) with F by lia. reflexivity.
    - split; auto. rewrite S2. replace dm with 0%nat by lia. rewrite Nat.add_0_r. auto. }
  destruct S3 as [S3 G3]. clearbody o3. destruct o3 as [s3 g3]. cbn [shape get] in S3, G3. subst s3.
  unfold unsqueeze. cbn [shape insert_nth]. ioh.
  eexists. split; [reflexivity|]. split; [reflexivity|]. intros n ch f Hn' Hc Hf.
  assert (Hg: (simple_sgrp F Fo pl f < Fo)%nat) by (unfold simple_sgrp; apply Nat.mod_upper_bound; lia).
  unfold size. cbn [get shape nth insert_nth].
  rewrite (nsum_ext _ _ (fun l => nmul (gt [n; ch; f; l]) (hot l (get (c_out c) [n; simple_sgrp F Fo pl f])))).
  { apply (nsum_hot L (fun l => gt [n; ch; f; l])); auto. }
  intros l Hl. gets. rewrite G3, G2 by (auto; lia). reflexivity.
Qed.
Lemma dsimple_routes Fo pl cd c N : (0 < Fo)%nat -> (0 < lf_R lf)%nat -> is_perm pl (lf_F lf + simple_dummy (lf_F lf) Fo) ->
  ohctx cd c N Fo (lf_L lf) (lf_R lf) ->
  droutes (fun s => s <- dleaf_select s None (d_rep cd) ;; dsimple_index lf Fo (vec (argsort pl)) (d_n cd) (d_out cd) s) c N
    (fun _ => simple_sgrp (lf_F lf) Fo pl).
Proof.
  intros HFo HR Hp Hc s Hs Hf. pose proof Hc as ((_ & _ & Go & _ & Gr) & _ & _ & Hrep & _).
  destruct (dleaf_select_none_ok s N _ _ HR Hrep Gr Hs Hf) as (t & -> & St & Gt). cbn [bind].
  destruct (dsimple_index_ok Fo pl cd c N _ t HFo Hp Hc St) as (y & -> & Sy & Gy).
  { intros. rewrite Gt by auto. apply Hf. }
  exists y. split; auto. split; auto. intros n ch f Hn Hch Hff. rewrite Gy by auto.
  apply Gt; auto. apply Go; auto. apply Nat.mod_upper_bound. lia.
Qed.
Lemma ddirect_routes cd c N : (0 < lf_R lf)%nat -> ohctx cd c N (lf_F lf) (lf_L lf) (lf_R lf) ->
  droutes (fun s => dleaf_select s (Some (d_out cd)) (d_rep cd)) c N (fun _ f => f).
Proof.
  intros HR Hc s Hs Hf. pose proof Hc as ((_ & _ & Goc & _ & Gr) & _ & (So & Go) & Hrep & _).
  destruct (dleaf_select_rep s N _ _ HR Hrep Gr Hs Hf) as (t & Et & St & Gt).
  unfold dleaf_select. unfold size at 1. rewrite Hs. cbn [nth Nat.eqb assert guard bind]. cbn zeta in Et.
  destruct (view_infer [] _ (d_rep cd)) as [r1|]; [|discriminate]. cbn [bind] in Et |- *. rewrite Et. cbn [bind].
  destruct t as [st gt], (d_out cd) as [so go]. cbn [shape get] in St, Gt, So, Go. subst st so.
  unfold unsqueeze. cbn [shape insert_nth]. ioh. unfold dim. cbn [shape length]. change (4 - 1)%nat with 3%nat.
  rewrite squeeze_1 by reflexivity. cbn [remove_nth]. eexists. split; [reflexivity|]. split; [reflexivity|].
  intros n ch f Hn Hch Hff. pose proof (Goc n f Hn Hff) as Hl. unfold size. cbn [get shape nth insert_nth].
  rewrite (nsum_ext _ _ (fun l => nmul (gt [n; ch; f; l; 0%nat]) (hot l (get (c_out c) [n; f])))).
  - rewrite (nsum_hot (lf_L lf) (fun l => gt [n; ch; f; l; 0%nat])); auto. intros l Hl'. rewrite Gt by auto. apply Hf.
  - intros l Hl'. gets. rewrite Go by auto. reflexivity.
Qed.
End LeafD.

Lemma to_index_INR b k : to_index b (Fin (INR k)) = k.
Proof.
  unfold to_index, rtrunc. destruct (Rle_dec 0 (INR k)) as [_|Z]; [|exfalso; apply Z; apply pos_INR].
  rewrite Int_part_INR. destruct (Z.ltb_spec (Z.of_nat k) 0); [lia|]. apply Nat2Z.id.
Qed.

(** Pointwise agreement of a float tensor with a tensor of values. *)
Section Net.
Context {V : Type}.
Variable val : V -> R.
Definition trel (a : tensor num) (b : tensor (option V)) : Prop :=
  shape a = shape b /\ forall idx, inb (shape a) idx -> get a idx = num_of val (get b idx).
Lemma view_trel s a b b' : trel a b -> view s b = Ok b' -> exists a', view s a = Ok a' /\ trel a' b'.
Proof.
  intros [Hs Hg]. unfold view. rewrite Hs. destruct (Nat.eqb_spec (numel s) (numel (shape b))) as [E|]; [|discriminate].
  intros H. injection H as <-. eexists. split; [reflexivity|]. split; [reflexivity|]. cbn [shape get]. intros idx Hi.
  apply Hg. rewrite Hs. apply unravel_inb. rewrite <- E. apply ravel_lt. auto.
Qed.

Variable E : einet V.
Hypothesis HE : einet_ok E.
Hypothesis Hmix : forall m, e_mixing E = Some m -> nrep m = 1%nat.
Let lf := leaf_of (e_leaf E).
Variable supp : list nat -> V -> Prop.
Variable us : nat -> list nat -> R.

Lemma dinit_ok a : ohctx (dinit_ctx a) (init_ctx (V := V) a) (num_samples a) 1 1 1.
Proof.
  split; [apply init_ctx_good; lia|]. split; [reflexivity|]. split; [|split; [|split; reflexivity]].
  - split; [reflexivity|]. intros n d k Hn Hd Hk. unfold dinit_ctx, full, hot. cbn [d_out get]. replace k with 0%nat by lia. reflexivity.
  - split; [reflexivity|]. intros n r Hn Hr. unfold dinit_ctx, full, hot. cbn [d_rep get]. replace r with 0%nat by lia. reflexivity.
Qed.
Lemma dclass_sim a : a_class a = CNone -> (0 < num_samples a)%nat -> a_tsum a <> 0 -> let N := num_samples a in
  exists cd c, dclass_step us E a (dinit_ctx a) = Ok (N, cd) /\ outcome supp (class_step E a (init_ctx a)) (Ok (N, c)) /\
    (a_mpe a = true -> class_step E a (init_ctx a) = Ret (N, c)) /\ ohctx cd c N 1 (e_K E) 1 /\ c_mpe c = a_mpe a /\ c_tsum c = a_tsum a.
Proof.
  intros Hc HN HT N. pose proof (dinit_ok a) as G. fold N in G. unfold dclass_step, class_step. fold N. rewrite Hc.
  destruct (Nat.ltb_spec 1 (e_K E)) as [HK1|HK1].
  - destruct (eo_root E HE HK1) as (s & Es & Hok & S1 & S2 & S3 & S4). rewrite Es. cbn [attr lift mbind bind].
    pose proof (dlayer_sim supp 1 1 (e_K E) (LSum s) N None vone (us 0%nat)) as L.
    cbn [layer_ok layer_dout layer_sout layer_sample dlayer_sample layer_cached] in L. unfold dims in L. rewrite S1, S3 in L.
    assert (L': dsim supp (sum_sample s None) (dsum_sample s None (us 0%nat)) N 1 1 (e_K E) 1 1).
    { apply L; auto. left; auto. intros n Hn d k r _ _ _. unfold vone. lra. }
    clear L. destruct (L' _ _ G) as (cd & c & E1 & O1 & M1 & G1 & Q1 & T1); [exact HT|].
    exists cd, c. rewrite E1. cbn [bind]. split; [reflexivity|]. split; [|split; [|auto]].
    + apply (outcome_bind_intro _ _ _ c); auto. constructor.
    + intros Hm. rewrite (M1 Hm). reflexivity.
  - pose proof (eo_K E HE). exists (dinit_ctx a), (init_ctx a). split; [reflexivity|]. split; [constructor|]. split; [auto|].
    replace (e_K E) with 1%nat by lia. auto.
Qed.

Lemma dmixing_sim N cs (v : nat -> nat -> nat -> R) cd c : c_tsum c <> 0 -> mcached E N (ca_mixing cs) v ->
  (forall n y r, (n < N)%nat -> (y < e_K E)%nat -> (r < e_R E)%nat -> 0 < v n y r) ->
  ohctx cd c N 1 (e_K E) 1 ->
  exists cd' c', dmixing_step us E cs N cd = Ok cd' /\ outcome supp (mixing_step E cs N c) (Ok c') /\
    (c_mpe c = true -> mixing_step E cs N c = Ret c') /\ ohctx cd' c' N 1 (e_K E) (e_R E) /\ c_mpe c' = c_mpe c /\ c_tsum c' = c_tsum c.
Proof.
  intros HT Hca Hv Hc. unfold dmixing_step, mixing_step. destruct (Nat.ltb_spec 1 (e_R E)) as [HR|HR].
  - destruct (eo_mix E HE HR) as (m & Emx & Hok & Hs1 & Hs2). rewrite Emx. cbn [attr lift mbind bind].
    destruct (Hca HR m Emx) as (v' & Hca' & Ev'). pose proof Hok as (HS & _ & _).
    pose proof Hc as Hc0. rewrite <- Hs2 in Hc0. pose proof Hc0 as (Gc0 & _).
    destruct (@mixing_sampler V m N _ (ca_mixing cs) v' (c_tsum c) c Hok HT Hca' Gc0 eq_refl) as (lw & Ef & Hlw).
    destruct (dmixing_dsampler m N (ca_mixing cs) v' (c_tsum c) (us 1%nat) cd c Hok (Hmix m Emx) HT Hca' Hc0 eq_refl)
      as (lwd & kt & oh & Ed & Hlwd & Sk & Hp & (Soh & Goh)).
    pose proof Hc as (Gc & D1 & D2 & D3 & D4 & D5). pose proof Gc as (K1 & K2 & K3 & K4 & K5).
    assert (HS1: forall n d, (n < N)%nat -> (d < 1)%nat ->
       rsum (sin m) (fun r => mixpost m (c_tsum c) (v' n) (get (c_out c) [n; d]) r) = 1).
    { intros n d Hn' Hd. unfold mixpost, Rdiv. rewrite rsum_scal_r. apply Rinv_r. apply Rgt_not_eq. apply rsum_pos; auto.
      intros r Hr. rewrite Hs1 in Hr. apply Rmult_lt_0_compat; [apply wsoft_pos; auto|rewrite Ev'; auto]. }
    destruct (choose_sim supp c lw lwd (us 1%nat) kt N _ _ _ HS Hlw Hlwd HS1 Hp) as (t & Ot & Mt & St & Gt).
    assert (VW: exists t', view [N] t = Ok t' /\ shape t' = [N] /\ forall n, (n < N)%nat -> get t' [n] = get t [n; 0%nat]).
    { unfold view. rewrite St. cbn [numel]. rewrite !Nat.mul_1_r, Nat.eqb_refl. eexists. split; [reflexivity|].
      split; [reflexivity|]. intros n Hn. cbn [get ravel numel unravel].
      rewrite !Nat.mul_1_r, Nat.add_0_r, Nat.div_1_r, Nat.mod_1_r. reflexivity. }
    destruct VW as (t' & Ev & Sv & Gv).
    assert (VD: exists rep, view [N; e_R E] oh = Ok rep /\ shape rep = [N; e_R E] /\
      forall n r, (n < N)%nat -> (r < e_R E)%nat -> get rep [n; r] = get oh [n; 0%nat; r]).
    { rewrite Hs1 in Soh. unfold view. rewrite Soh. cbn [numel]. rewrite !Nat.mul_1_l, !Nat.mul_1_r, Nat.eqb_refl. eexists. split; [reflexivity|].
      split; [reflexivity|]. intros n r Hn Hr. cbn [get].
      replace (ravel [N; e_R E] [n; r]) with (ravel [N; 1; e_R E]%nat [n; 0; r]%nat) by (cbn [ravel numel]; lia).
      rewrite unravel_ravel by (simpl; auto). reflexivity. }
    destruct VD as (rep & Erep & Srep & Grep).
    rewrite Ed. cbn [bind dset_out d_out]. rewrite Erep. cbn [bind]. rewrite Ef, mbind_assoc. cbn [mbind].
    eexists. exists (mkCtx (c_n c) (c_out c) t' (c_mpe c) (c_tsum c)). split; [reflexivity|].
    split; [|split; [|split; [|split; reflexivity]]].
    + apply (outcome_bind_intro _ _ _ t); auto. cbn [set_out c_out]. rewrite Ev. cbn [lift mbind]. constructor.
    + intros Hm. rewrite (Mt Hm). cbn [mbind set_out c_out]. rewrite Ev. reflexivity.
    + split; [|split; [exact D1|split; [exact D2|split; [|split; auto]]]].
      * split; [exact K1|]. split; [exact K2|]. split; [exact K3|]. split; [exact Sv|].
        intros n Hn. cbn [c_rep]. rewrite Gv, Gt by auto. rewrite <- Hs1. apply Hp; auto.
      * split; [exact Srep|]. intros n r Hn Hr. cbn [d_rep c_rep]. rewrite Grep by auto. rewrite <- Hs1 in Hr. rewrite Goh by auto.
        rewrite Gv, Gt by auto. reflexivity.
  - pose proof (eo_R E HE). exists cd, c. split; [reflexivity|]. split; [constructor|]. split; [auto|].
    replace (e_R E) with 1%nat by lia. auto.
Qed.

Definition dbottom (cd : dctx) (N : nat) (mode : bool) : M V (tensor num) :=
  c <~ lift (dunpermute E N cd) ;; dleaf_sample val (e_leaf E) c mode.
Lemma dbottom_routes cd c N : lf_ctx lf = true -> (0 < N)%nat -> ohctx cd c N (leaf_out E) (e_L E) (e_R E) ->
  exists k, droutes lf k c N (sgrp E) /\
    forall mode, dbottom cd N mode = (s <~ leaf_mode_or_draw lf N mode ;; lift (k (tmap (fun v => Fin (val v)) s))).
Proof.
  intros Hctx HN Hc. pose proof (eo_ll E HE) as H. unfold dbottom, leaf_layer_ok, leaf_out, dunpermute, sgrp in *.
  pose proof (eo_lC E HE) as EC. pose proof (eo_lF E HE) as EF. pose proof (eo_R E HE) as HR0.
  pose proof (eo_lL E HE) as EL'. pose proof (eo_lR E HE) as ER. pose proof (eo_F E HE) as HF. fold lf in EC, EF, EL', ER.
  assert (ELF: leaf_of (e_leaf E) = lf) by reflexivity. clearbody lf.
  destruct (e_leaf E) as [lf' Fo sc|lf' Fo pl pinv|lf']; cbn [leaf_of] in ELF; subst lf';
    destruct (e_perm E) as [[p q]|]; try tauto; cbn [lift mbind].
  - rewrite <- EF, <- ER in H. rewrite <- EL', <- ER in Hc. rewrite <- ER in HR0.
    eexists. split; [apply (dfact_routes lf Fo sc _ cd c N HN HR0 H Hc)|]. intros mode.
    unfold dleaf_sample, dleaf_index. cbn [leaf_of]. rewrite Hctx. cbn [guard lift mbind].
    pose proof Hc as (_ & -> & _). reflexivity.
  - destruct H as (HR & HFo & Hp & ->). rewrite <- EF in Hp. rewrite <- EL', <- ER in Hc. rewrite <- ER in HR0.
    eexists. split; [rewrite <- EF; apply (dsimple_routes lf Fo pl cd c N HFo HR0 Hp Hc)|]. intros mode.
    unfold dleaf_sample, dleaf_index. cbn [leaf_of]. rewrite Hctx. cbn [guard lift mbind].
    pose proof Hc as (_ & -> & _). reflexivity.
  - pose proof Hc as ((Hn & So & Go & Sr & Gr) & Dn & (Sdo & Gdo) & (Sdr & Gdr) & Dm & Dt).
    assert (PQ: forall r f, (r < e_R E)%nat -> (f < e_F E)%nat -> (nth f (q r) 0 < e_F E)%nat).
    { intros r f Hr Hf. destruct (H r Hr) as [Hp ->]. apply (argsort_nth _ _ f Hp Hf). }
    destruct cd as [dn dout drp dm dt]. cbn [d_n d_out d_rep d_mpe d_tsum dset_out] in *. subst dn.
    destruct dout as [so go], drp as [sr gr]. cbn [shape get] in *. subst so sr.
    unfold tmap at 1, buffer. unfold unsqueeze at 1. cbn [shape insert_nth get].
    rewrite expand_ok by expands. cbn [bind shape].
    unfold unsqueeze at 1. cbn [shape insert_nth]. ioh. unfold size. unfold unsqueeze. cbn [shape nth insert_nth bind].
    rewrite expand_ok by expands. cbn [bind shape].
    match goal with |- context [gather 1 ?x _] => set (ix := x) end.
    assert (Six: shape ix = [N; e_F E; e_L E]) by reflexivity.
    assert (Gix: forall n f l, (n < N)%nat -> (f < e_F E)%nat -> (l < e_L E)%nat -> get ix [n; f; l] = nth f (q (get (c_rep c) [n])) 0%nat).
    { intros n f l Hn' Hf Hl. unfold ix, tmap. cbn [get].
      match goal with |- to_index _ ?X = _ => assert (EX: X = Fin (INR (nth f (q (get (c_rep c) [n])) 0%nat))) end.
      2:{ rewrite EX. apply to_index_INR. }
      gets. rewrite (nsum_ext _ _ (fun r => nmul (Fin (INR (nth f (q r) 0%nat))) (hot r (get (c_rep c) [n])))).
      - rewrite (nsum_hot (e_R E) (fun r => Fin (INR (nth f (q r) 0%nat)))); auto.
      - intros r Hr. gets. rewrite Gdr by auto. reflexivity. }
    clearbody ix. rewrite gather_ok.
    2:{ rewrite Six. fits. }
    2:{ rewrite Six. intros idx Hi. inbs. rewrite Gix by auto. unfold size. cbn [shape nth]. apply PQ; auto. }
    cbn [bind lift mbind]. rewrite Six.
    match goal with |- context [dleaf_sample _ _ ?X _] => set (cd' := X) end.
    set (c' := mkCtx N (mkT [N; e_F E] (fun idx => match idx with [n; f] => get (c_out c) [n; nth f (q (get (c_rep c) [n])) 0%nat] | _ => 0%nat end))
       (c_rep c) (c_mpe c) (c_tsum c)).
    assert (Gc': ohctx cd' c' N (lf_F lf) (lf_L lf) (lf_R lf)).
    { rewrite EF, EL', ER. split; [repeat split; cbn; auto|]. split; [reflexivity|]. split; [|split; [|split; auto]].
      - split; [reflexivity|]. intros n d k Hn' Hd Hk. unfold cd', c'. unfold dset_out; cbn [d_out c_out get set_nth]. rewrite Gix by auto. apply Gdo; auto.
      - split; [reflexivity|]. intros n r Hn' Hr. apply Gdr; auto. }
    rewrite <- ER in HR0.
    exists (fun s => dleaf_select s (Some (d_out cd')) (d_rep cd')). split.
    + intros s Hs Hf. destruct (ddirect_routes lf cd' c' N HR0 Gc' s Hs Hf) as (t & Et & St & Gt). exists t. split; [exact Et|].
      split; [exact St|]. intros n ch f Hn' Hch Hff. rewrite (Gt n ch f Hn' Hch Hff). reflexivity.
    + intros mode. unfold dleaf_sample, dleaf_index. cbn [leaf_of]. rewrite Hctx. cbn [guard lift mbind]. reflexivity.
Qed.

Lemma leaf_raw N mode r : (mode = true -> lf_mode lf <> None) -> outcome supp (leaf_mode_or_draw lf N mode) r ->
  exists s, r = Ok s /\ shape s = [N; 1; lf_C lf; lf_F lf; lf_L lf; lf_R lf; 1]%nat /\
    outcome supp (leaf_mode_or_draw lf N mode) (Ok s) /\ (mode = true -> leaf_mode_or_draw lf N mode = Ret s).
Proof.
  intros Hm Ho. pose proof Ho as Ho0. unfold leaf_mode_or_draw in *. destruct mode.
  - destruct (lf_mode lf) as [md|] eqn:Emd; [|exfalso; apply Hm; auto].
    unfold repeat_t in *. cbn [shape length Nat.eqb lift mbind map2] in *. apply outcome_ret_inv in Ho. subst r.
    eexists. split; [reflexivity|]. split; [|split; [constructor|reflexivity]]. unfold unsqueeze. cbn [shape insert_nth].
    rewrite !Nat.mul_1_r, !Nat.mul_1_l. reflexivity.
  - apply outcome_bind in Ho as [(e & Ho & ->)|(s & Hs & Ho)].
    + exfalso. apply outcome_draw_tensor in Ho as [(e' & idx & _ & _ & Hd)|(t & Z & _)]; [|discriminate].
      inversion Hd as [| | | |key kk v rr Hv Hr]; subst. inversion Hr.
    + apply outcome_draw_tensor in Hs as [(e' & idx & Z & _)|(t & Z & St & _)]; [discriminate|]. injection Z as <-.
      apply outcome_ret_inv in Ho. subst r. eexists. split; [reflexivity|].
      split; [unfold unsqueeze; cbn [shape]; rewrite St; reflexivity|]. split; [exact Ho0|discriminate].
Qed.

(** The leaf draws [s] are shared; each mode keeps one of them per entry. *)
Lemma dbottom_sim cd c N mode r : lf_ctx lf = true -> (0 < N)%nat -> (mode = true -> lf_mode lf <> None) ->
  ohctx cd c N (leaf_out E) (e_L E) (e_R E) -> outcome supp (dbottom cd N mode) r ->
  exists t t', r = Ok t /\ outcome supp (bottom E c mode) (Ok t') /\ shape t = [N; e_C E; e_F E] /\ shape t' = [N; e_C E; e_F E] /\
    (forall idx, inb [N; e_C E; e_F E] idx -> get t idx = Fin (val (get t' idx))) /\
    (mode = true -> dbottom cd N mode = Ret t /\ bottom E c mode = Ret t').
Proof.
  intros Hctx HN Hm Hc Ho. pose proof Hc as (Gc & _).
  destruct (dbottom_routes cd c N Hctx HN Hc) as (k & Hk & Eb). rewrite Eb in Ho |- *.
  destruct (bottom_routes E HE c N Hctx HN Gc) as (k' & Hk' & Eb'). rewrite Eb'. unfold leaf_prog. fold lf in Hk', Eb' |- *.
  pose proof (eo_lC E HE) as EC. pose proof (eo_lF E HE) as EF. fold lf in EC, EF.
  assert (X: forall s, shape s = [N; 1; lf_C lf; lf_F lf; lf_L lf; lf_R lf; 1]%nat -> exists t t', k (tmap (fun v => Fin (val v)) s) = Ok t /\ k' s = Ok t' /\
    shape t = [N; e_C E; e_F E] /\ shape t' = [N; e_C E; e_F E] /\ forall idx, inb [N; e_C E; e_F E] idx -> get t idx = Fin (val (get t' idx))).
  { intros s Ss. destruct (Hk (tmap (fun v => Fin (val v)) s)) as (t & Et & St & Gt); [exact Ss|reflexivity|].
    destruct (Hk' s Ss) as (t' & Et' & St' & Gt'). exists t, t'. rewrite EC, EF in *. repeat (split; [assumption|]).
    intros idx Hi. inbs. rewrite Gt, Gt' by auto. reflexivity. }
  apply outcome_bind in Ho as [(e & Ho & _)|(s & Hs & Ho)].
  { destruct (leaf_raw N mode _ Hm Ho) as (s & Z & _). discriminate. }
  destruct (leaf_raw N mode _ Hm Hs) as (s' & Z & Ss & Os & Ms). injection Z as <-.
  destruct (X s Ss) as (t & t' & Et & Et' & St & St' & Gt). rewrite Et in Ho. cbn [lift] in Ho. apply outcome_ret_inv in Ho.
  exists t, t'. split; auto. split; [|split; [auto|split; [auto|split; [auto|]]]].
  - apply (outcome_bind_intro _ _ _ s); auto. rewrite Et'. constructor.
  - intros Hmo. rewrite (Ms Hmo). cbn [mbind]. rewrite Et, Et'. split; reflexivity.
Qed.

Lemma dmerge_sim N e ms (t : tensor num) (t' : tensor V) : input_ok E N e ms ->
  shape t = [N; e_C E; e_F E] -> shape t' = [N; e_C E; e_F E] ->
  (forall idx, inb [N; e_C E; e_F E] idx -> get t idx = Fin (val (get t' idx))) ->
  exists o o', dmerge_evidence val e ms t = Ok o /\ merge_evidence e ms t' = Ok o' /\ trel o o'.
Proof.
  intros Hin St St' Gt. destruct (merge_ok E N e ms t' Hin St') as (o' & Eo & _). rewrite Eo.
  unfold merge_evidence in Eo. unfold dmerge_evidence. rewrite St. rewrite St' in Eo.
  destruct (view [N; e_C E; e_F E] e) as [e'|] eqn:Ev; [|discriminate]. cbn [bind] in Eo.
  assert (T0: trel (tmap (num_of val) e) e) by (split; [reflexivity|intros; reflexivity]).
  destruct (view_trel _ _ _ _ T0 Ev) as (d & Ed & [Sd Gd]). rewrite Ed. cbn [bind].
  assert (Se: shape e' = [N; e_C E; e_F E]).
  { unfold view in Ev. destruct (_ =? _)%nat; [|discriminate]. injection Ev as <-. reflexivity. }
  rewrite Se in Sd.
  destruct ms as [m|].
  - unfold size in *. rewrite Sd, Se in *. cbn [nth] in *. destruct (forallb _ m); [|discriminate]. cbn [guard bind] in *.
    match type of Eo with view _ ?B = _ => set (bt := B) in * end. match goal with |- context [view _ ?A] => set (at' := A) end.
    assert (T1: trel at' bt).
    { split; [reflexivity|]. unfold at', bt. cbn [shape get]. intros idx Hi. destruct (existsb _ m); auto.
      rewrite Gt by auto. reflexivity. }
    destruct (view_trel _ _ _ _ T1 Eo) as (o & -> & To). exists o, o'. auto.
  - cbn [bind] in *. rewrite Sd. rewrite Se in Eo.
    match type of Eo with view _ ?B = _ => set (bt := B) in * end. match goal with |- context [view _ ?A] => set (at' := A) end.
    assert (T1: trel at' bt).
    { split; [reflexivity|]. unfold at', bt. cbn [shape get]. intros idx Hi. rewrite Gd by (rewrite Sd; auto).
      destruct (get e' idx); cbn [num_of isnan]; auto. }
    destruct (view_trel _ _ _ _ T1 Eo) as (o & -> & To). exists o, o'. auto.
Qed.

Definition dwalk (a : sargs (V := V)) (cs : caches) : res dctx :=
  '(n, c) <- dclass_step us E a (dinit_ctx a) ;;
  c <- dmixing_step us E cs n c ;;
  dsample_layers us (combine (e_layers E) (ca_layers cs)) 0 c.
Lemma dwalk_sim a cs v T : a_class a = CNone -> (0 < num_samples a)%nat -> a_tsum a <> 0 ->
  let N := num_samples a in cs_ok E T N cs v -> (forall n, (n < N)%nat -> vpos (leaf_out E) (e_L E) (e_R E) (v n)) ->
  exists cd c, dwalk a cs = Ok cd /\ outcome supp (walk E a cs) (Ok c) /\ (a_mpe a = true -> walk E a cs = Ret c) /\
    ohctx cd c N (leaf_out E) (e_L E) (e_R E).
Proof.
  intros Hcl HN HT N [Hl Hmx] Hv. destruct (dclass_sim a Hcl HN HT) as (cd1 & c1 & E1 & O1 & M1 & G1 & Q1 & T1). fold N in E1, O1, M1, G1, HN.
  assert (Hvm: forall n y r, (n < N)%nat -> (y < e_K E)%nat -> (r < e_R E)%nat -> 0 < evals (RefEinetS.us E T) (v n) 0%nat y r).
  { intros n y r Hn Hy Hr. apply (evals_root_pos E HE T (v n) y r); auto. }
  destruct (dmixing_sim N cs _ cd1 c1 ltac:(rewrite T1; auto) Hmx Hvm G1) as (cd2 & c2 & E2 & O2 & M2 & G2 & Q2 & T2).
  pose proof (dsample_layers_sim supp (e_R E) us (e_layers E) 0 (leaf_out E) (e_L E) 1 (e_K E) N (ca_layers cs) v T (eo_layers E HE) HN Hl Hv) as L.
  destruct (L cd2 c2 G2) as (cd3 & c3 & E3 & O3 & M3 & G3 & Q3 & T3); [rewrite T2, T1; auto|].
  exists cd3, c3. unfold dwalk, walk. rewrite E1. cbn [bind]. rewrite E2. cbn [bind]. split; [exact E3|]. split; [|split; auto].
  - apply (outcome_bind_intro _ _ _ (N, c1)); auto. cbn [fst snd]. apply (outcome_bind_intro _ _ _ c2); auto.
  - intros Hm. rewrite (M1 Hm). cbn [mbind fst snd]. rewrite M2 by congruence. cbn [mbind]. apply M3. congruence.
Qed.
Lemma dsample_core a cs cd : check_args E a = Ok tt -> ev_caches E a = Ok cs -> dwalk a cs = Ok cd ->
  (forall nc, dclass_step us E a (dinit_ctx a) = Ok nc -> fst nc = num_samples a) ->
  dsample val us E a = (t <~ dbottom cd (num_samples a) (a_mpe a || a_mpel a) ;;
    match a_ev a with None => Ret t | Some e => lift (dmerge_evidence val e (a_ms a) t) end).
Proof.
  intros H1 H2 H3 H4. unfold dsample, dsample_ctx, dwalk, dbottom in *. rewrite H1, H2. cbn [bind].
  destruct (dclass_step us E a (dinit_ctx a)) as [[n c]|] eqn:Ec; [|discriminate]. specialize (H4 _ eq_refl). cbn [fst] in H4. subst n.
  cbn [bind] in H3 |- *. destruct (dmixing_step us E cs (num_samples a) c) as [c1|]; [|discriminate]. cbn [bind] in H3 |- *.
  rewrite H3. cbn [bind]. destruct (dunpermute E (num_samples a) cd); cbn [lift mbind]; [|reflexivity]. reflexivity.
Qed.

(** Every result of differentiable sampling is a possible result of index sampling. *)
Theorem dsample_follows a r : check_args E a = Ok tt -> a_class a = CNone -> (0 < num_samples a)%nat -> a_tsum a <> 0 ->
  lf_ctx lf = true -> (a_mpe a || a_mpel a = true -> lf_mode lf <> None) ->
  (forall e, a_ev a = Some e -> input_ok E (num_samples a) e (a_ms a)) ->
  outcome supp (dsample val us E a) r ->
  exists t t', r = Ok t /\ outcome supp (sample E a) (Ok t') /\ trel t t' /\
    (a_mpe a = true -> dsample val us E a = Ret t /\ sample E a = Ret t').
Proof.
  intros Hch Hcl HN HT Hctx Hmd Hev Ho. set (N := num_samples a) in *.
  assert (Q: exists cs v, ev_caches E a = Ok cs /\ cs_ok E 1 N cs v /\ forall n, (n < N)%nat -> vpos (leaf_out E) (e_L E) (e_R E) (v n)).
  { destruct (a_ev a) as [e|] eqn:Ee.
    - destruct (forward_full_rep E HE N e (a_ms a) (Hev e eq_refl)) as (y & cs & Ey & _ & _ & v & Hv & Hc1 & Hc2). fold lf in Hv.
      exists cs, v. split; [unfold ev_caches; rewrite Ee, Ey; auto|]. split.
      + split; auto. intros HR m Em. eexists. split; [apply Hc2; auto|]. reflexivity.
      + intros n Hn d s q Hd Hs Hr. rewrite Hv by auto. apply (leafval_pos (fnet E)); auto. intros. apply lval_pos.
    - exists (no_caches E), vone. split; [unfold ev_caches; rewrite Ee; auto|]. split; [apply no_caches_ok; auto|].
      intros n Hn d s q _ _ _. unfold vone. lra. }
  destruct Q as (cs & v & Ec & Hcs & Pv).
  destruct (dwalk_sim a cs v 1 Hcl HN HT Hcs Pv) as (cd & c & Ed & Ow & Mw & G). fold N in G.
  assert (Hn: forall nc, dclass_step us E a (dinit_ctx a) = Ok nc -> fst nc = num_samples a).
  { intros nc Hnc. destruct (dclass_sim a Hcl HN HT) as (cd1 & c1 & E1 & _). rewrite E1 in Hnc. injection Hnc as <-. reflexivity. }
  rewrite (dsample_core a cs cd Hch Ec Ed Hn) in Ho |- *. rewrite (sample_core E a cs Hch Ec).
  fold N in Ho |- *. unfold core, finish.
  assert (B: forall r, outcome supp (dbottom cd N (a_mpe a || a_mpel a)) r ->
    exists t t', r = Ok t /\ outcome supp (bottom E c (a_mpe a || a_mpel a)) (Ok t') /\ shape t = [N; e_C E; e_F E] /\ shape t' = [N; e_C E; e_F E] /\
    (forall idx, inb [N; e_C E; e_F E] idx -> get t idx = Fin (val (get t' idx))) /\
    (a_mpe a || a_mpel a = true -> dbottom cd N (a_mpe a || a_mpel a) = Ret t /\ bottom E c (a_mpe a || a_mpel a) = Ret t')).
  { intros r' Hr'. apply (dbottom_sim cd c N _ r' Hctx HN Hmd G Hr'). }
  apply outcome_bind in Ho as [(e' & Ho & _)|(t0 & Ho & Hr)].
  { destruct (B _ Ho) as (t & t' & Z & _). discriminate. }
  destruct (B _ Ho) as (t & t' & Z & Ot' & St & St' & Gt & Mt). injection Z as ->.
  assert (M': a_mpe a = true -> a_mpe a || a_mpel a = true) by (intros ->; reflexivity).
  assert (Oc: outcome supp (mbind (walk E a cs) (fun c => bottom E c (a_mpe a || a_mpel a))) (Ok t')).
  { apply (outcome_bind_intro _ _ _ c); auto. }
  assert (Mc: a_mpe a = true -> mbind (walk E a cs) (fun c => bottom E c (a_mpe a || a_mpel a)) = Ret t').
  { intros Hm. rewrite (Mw Hm). cbn [mbind]. apply (Mt (M' Hm)). }
  destruct (a_ev a) as [e|] eqn:Ee.
  - destruct (dmerge_sim N e (a_ms a) t t' (Hev e eq_refl) St St' Gt) as (o & o' & Eo & Eo' & To).
    rewrite Eo in Hr. apply outcome_ret_inv in Hr. exists o, o'. split; auto. split; [|split; [auto|]].
    + apply (outcome_bind_intro _ _ _ t'); auto. rewrite Eo'. constructor.
    + intros Hm. destruct (Mt (M' Hm)) as [-> _]. cbn [mbind]. rewrite Eo. rewrite (Mc Hm). cbn [mbind]. rewrite Eo'. split; reflexivity.
  - apply outcome_ret_inv in Hr. exists t, (tmap Some t'). split; auto. split; [|split].
    + apply (outcome_bind_intro _ _ _ t'); auto. constructor.
    + split; [unfold tmap; cbn [shape]; congruence|]. rewrite St. intros idx Hi. rewrite Gt by auto. reflexivity.
    + intros Hm. destruct (Mt (M' Hm)) as [-> _]. cbn [mbind]. rewrite (Mc Hm). split; reflexivity.
Qed.
End Net.
