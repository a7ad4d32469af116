(** Networks in training mode: every layer computes a sum over the kept children. *)
From Coq Require Import List Arith Lia Bool Reals Lra.
Import ListNotations.
From Verif Require Import Base RSum Num Tensor Prob Layers Circuit Net RefFwd RefLayer Leaf RefLeaf Einet RefNet RefEinet RefSample Dropout RefDropout PropDropout DropNet.
Local Open Scope R_scope.
Local Arguments Nat.div : simpl never.
Local Arguments Nat.modulo : simpl never.
Local Arguments Nat.mul : simpl never.
Local Arguments Nat.add : simpl never.
Local Arguments Nat.sub : simpl never.
Local Arguments Nat.min : simpl never.
Local Arguments clamp : simpl never.
Local Arguments bdim : simpl never.

(** The factor of an entry under an optional mask. *)
Definition keepw (mask : option (tensor bool)) (idx : list nat) : R :=
  match mask with None => 1 | Some m => kept (get m idx) end.
Lemma keepw_range mask idx : 0 <= keepw mask idx <= 1.
Proof. destruct mask as [m|]; cbn [keepw]; [destruct (get m idx); simpl; lra|lra]. Qed.
Definition mask_shape (mask : option (tensor bool)) (s : list nat) : Prop :=
  match mask with None => True | Some m => shape m = s end.

(** A mask multiplies. *)
Lemma apply_mask_get mask x s : mask_shape mask s -> shape x = s ->
  exists y, apply_mask mask x = Ok y /\ shape y = s /\
    forall idx a, inb s idx -> 0 <= a -> get x idx = nlog (Fin a) -> get y idx = nlog (Fin (keepw mask idx * a)).
Proof.
  intros Hm Hx. destruct mask as [m|]; cbn [apply_mask].
  - destruct (bop_same nadd x (log_keep m)) as (y & E & Sy & Gy).
    { unfold log_keep, tmap. cbn [shape]. cbn [mask_shape] in Hm. congruence. }
    exists y. unfold badd. split; [exact E|]. split; [congruence|]. intros idx a Hi Ha G.
    rewrite Gy by (rewrite Hx; auto). rewrite G, log_keep_get, nadd_nlog by (auto using kept_nonneg).
    cbn [keepw]. f_equal. f_equal. ring.
  - exists x. repeat split; auto. intros idx a _ _ G. cbn [keepw]. rewrite Rmult_1_l. exact G.
Qed.

Lemma left_vrep x N D S Rn v : vrep x N D S Rn v -> (2 <= D)%nat ->
  vrep (slice_step 1 0 2 x) N ((D + 1) / 2) S Rn (fun n => lval2 (v n)).
Proof.
  destruct x as [sx gx]. intros [Hs H] HD. simpl in Hs, H. subst sx. split.
  - unfold slice_step, size. simpl. rewrite Nat.sub_0_r. reflexivity.
  - intros n d s r Hn Hd Hs Hr. unfold slice_step; simpl. unfold lval2. apply H; auto.
    pose proof (Nat.div_mod (D + 1) 2 ltac:(lia)). pose proof (Nat.mod_upper_bound (D + 1) 2 ltac:(lia)). lia.
Qed.
Lemma right_vrep x N D S Rn v : vrep x N D S Rn v -> (2 <= D)%nat ->
  exists rt, pad_right (D mod 2) (slice_step 1 1 2 x) = Ok rt /\
  vrep rt N ((D + 1) / 2) S Rn (fun n => rval2 D (v n)).
Proof.
  destruct x as [sx gx]. intros [Hs H] HD. simpl in Hs, H. subst sx.
  pose proof (Nat.div_mod D 2 ltac:(lia)) as E1. pose proof (Nat.mod_upper_bound D 2 ltac:(lia)) as E2.
  assert (E3: ((D - 1 + (2 - 1)) / 2 = D / 2)%nat) by (f_equal; lia).
  unfold pad_right. destruct (Nat.ltb_spec 0 (D mod 2)) as [Hp|Hp].
  - assert (Hodd: (D mod 2 = 1)%nat) by lia. rewrite Hodd.
    assert (E4: ((D + 1) / 2 = D / 2 + 1)%nat).
    { replace (D + 1)%nat with ((D / 2 + 1) * 2)%nat by lia. apply Nat.div_mul. lia. }
    unfold cat2, slice_step, take, tmap, size. simpl. rewrite E3. rewrite !Nat.eqb_refl. simpl.
    eexists. split; [reflexivity|]. split.
    + simpl. rewrite E4. f_equal. f_equal. assert (1 <= D / 2)%nat by (apply Nat.div_le_lower_bound; lia). lia.
    + intros n d s r Hn Hd Hs Hr. cbn [get nth]. unfold rval2. cbn [set_nth nth].
      destruct (Nat.ltb_spec (2 * d + 1) D).
      * destruct (Nat.ltb_spec d (D / 2)); [|lia]. replace (1 + 2 * d)%nat with (2 * d + 1)%nat by lia. apply H; auto.
      * destruct (Nat.ltb_spec d (D / 2)); [lia|]. split; [lra|]. rewrite nlog_pos, ln_1 by lra. reflexivity.
  - assert (Hev: (D mod 2 = 0)%nat) by lia.
    assert (E4: ((D + 1) / 2 = D / 2)%nat).
    { symmetry. apply Nat.div_unique with (r := 1%nat); lia. }
    eexists. split; [reflexivity|]. unfold slice_step, size. split.
    + simpl. rewrite E3, E4. reflexivity.
    + intros n d s r Hn Hd Hs Hr. cbn [get nth set_nth]. unfold rval2. rewrite E4 in Hd.
      destruct (Nat.ltb_spec (2 * d + 1) D); [|lia]. replace (1 + 2 * d)%nat with (2 * d + 1)%nat by lia. apply H; auto.
Qed.
Lemma badd4_vrep a b N D S Rn v w : vrep a N D S Rn v -> vrep b N D S Rn w ->
  exists t, badd a b = Ok t /\ vrep t N D S Rn (fun n d s r => v n d s r * w n d s r).
Proof.
  intros [Ha Ga] [Hb Gb]. destruct (bop_same nadd a b) as (t & Ht & Hsh & Hg); [congruence|].
  exists t. split; [exact Ht|]. split; [congruence|]. intros n d s r Hn Hd Hs Hr.
  destruct (Ga n d s r) as [P1 E1]; auto. destruct (Gb n d s r) as [P2 E2]; auto.
  split; [apply Rmult_le_pos; auto|]. rewrite Hg by (rewrite Ha; simpl; auto). rewrite E1, E2. apply nadd_nlog; auto.
Qed.
Lemma vrep_ext x N D S Rn v w : vrep x N D S Rn v ->
  (forall n d s r, (n < N)%nat -> (d < D)%nat -> (s < S)%nat -> (r < Rn)%nat -> v n d s r = w n d s r) -> vrep x N D S Rn w.
Proof. intros [Hs H] E. split; auto. intros n d s r Hn Hd Hs' Hr. rewrite <- E by auto. auto. Qed.

(** A layer whose [k]-th product at output [d], [o], [r] has the factor [c d o r k]. *)
Definition deval (U : ulayer) (c : nat -> nat -> nat -> nat -> R) (v : vals) : vals := fun d o r =>
  rsum (uK U) (fun k => uW U d o r k * (c d o r k * uprod U v d o r k)).
Lemma deval_le Rn U c v : uwf Rn U -> (forall d o r k, 0 <= c d o r k <= 1) -> vle (uDin U) (uSin U) Rn v v ->
  vle (uDout U) (uSout U) Rn (deval U c v) (ueval U v).
Proof.
  intros Hw Hc Hv d o r Hd Ho Hr.
  assert (P: forall k, (k < uK U)%nat -> 0 <= uprod U v d o r k).
  { intros k Hk. unfold uprod. apply lprod_nonneg. intros d' Hin. apply (Hv d' (usel U d o k d') r); auto.
    - apply (uw_kids _ _ Hw d d' Hd); auto. - apply (uw_sel _ _ Hw); auto. }
  split.
  - apply rsum_nonneg. intros k Hk. apply Rmult_le_pos; [left; eapply uw_pos; eauto|]. apply Rmult_le_pos; [apply Hc|auto].
  - apply rsum_le. intros k Hk. apply Rmult_le_compat_l; [left; eapply uw_pos; eauto|].
    rewrite <- (Rmult_1_l (uprod U v d o r k)) at 2. apply Rmult_le_compat_r; [auto|apply Hc].
Qed.
Lemma term_le_sum n (f : nat -> R) i : (i < n)%nat -> (forall k, (k < n)%nat -> 0 <= f k) -> f i <= rsum n f.
Proof.
  induction n as [|n IH]; intros Hi H; [lia|]. rewrite rsum_S. destruct (Nat.eq_dec i n) as [->|].
  - assert (0 <= rsum n f) by (apply rsum_nonneg; intros; apply H; lia). lra.
  - assert (f i <= rsum n f) by (apply IH; [lia|intros; apply H; lia]). specialize (H n ltac:(lia)). lra.
Qed.
Lemma deval_pos Rn U c v d o r : uwf Rn U -> vpos (uDin U) (uSin U) Rn v -> (d < uDout U)%nat -> (o < uSout U)%nat -> (r < Rn)%nat ->
  (forall k, 0 <= c d o r k) -> (exists k, (k < uK U)%nat /\ c d o r k = 1) -> 0 < deval U c v d o r.
Proof.
  intros Hw Hv Hd Ho Hr Hc (j & Hj & Ej). unfold deval.
  assert (P: forall k, (k < uK U)%nat -> 0 < uW U d o r k * uprod U v d o r k).
  { intros k Hk. apply Rmult_lt_0_compat; [eapply uw_pos; eauto|]. unfold uprod. apply lprod_pos. intros d' Hin. apply Hv; auto.
    - apply (uw_kids _ _ Hw d d' Hd); auto. - apply (uw_sel _ _ Hw); auto. }
  apply Rlt_le_trans with (uW U d o r j * (c d o r j * uprod U v d o r j)).
  - rewrite Ej, Rmult_1_l. apply P; auto.
  - apply (term_le_sum (uK U) (fun k => uW U d o r k * (c d o r k * uprod U v d o r k)) j); auto.
    intros k Hk. replace (uW U d o r k * (c d o r k * uprod U v d o r k)) with (c d o r k * (uW U d o r k * uprod U v d o r k)) by ring.
    apply Rmult_le_pos; [apply Hc|left; apply P; auto].
Qed.

(** * The layers *)
Lemma linsum_vrep L x N mask v : linsum_ok L -> vrep x N (nf L) (sin L) (nrep L) v ->
  mask_shape mask [N; (nf L + 1) / 2; sin L; 1; nrep L]%nat ->
  exists y ca, linsum_forward L mask x = Ok (y, ca) /\
  vrep y N (linsum_features_out L) (sout L) (nrep L) (fun n => deval (linsum_u L 1) (fun d o r k => keepw mask [n; d; k; 0%nat; r]) (v n)).
Proof.
  intros (Hs & Hn & Hl) Hx Hm. unfold linsum_forward, size4. pose proof Hx as [Hsx _]. rewrite Hsx. cbn [bind].
  unfold linsum_features_out, linsum_weight_shape, linsum_features_out, linsum_pad in *. rewrite div2_half in *.
  pose proof (left_vrep _ _ _ _ _ _ Hx Hn) as HL.
  destruct (right_vrep _ _ _ _ _ _ Hx Hn) as (rt & E & HR). rewrite E. cbn [bind].
  destruct (badd4_vrep _ _ _ _ _ _ _ _ HL HR) as (q & Eq & [Sq Gq]). rewrite Eq. cbn [bind].
  assert (S0: shape (unsqueeze 3 q) = [N; (nf L + 1) / 2; sin L; 1; nrep L]%nat) by (unfold unsqueeze; cbn [shape]; rewrite Sq; reflexivity).
  destruct (apply_mask_get mask (unsqueeze 3 q) _ Hm S0) as (pm & Epm & Spm & Gpm). rewrite Epm. cbn [bind].
  destruct (wsum_vrep (logits L) pm N _ _ (sout L) _ (fun n d k r => keepw mask [n; d; k; 0%nat; r] *
     (lval2 (v n) d k r * rval2 (nf L) (v n) d k r)) Hs Hl Spm) as (t & Et & Ht).
  { intros n d k r Hn' Hd Hk Hr. destruct (Gq n d k r) as [P G]; auto.
    split; [apply Rmult_le_pos; [apply keepw_range|auto]|]. apply Gpm; auto; [simpl; repeat split; auto; lia]. }
  rewrite Et. cbn [bind]. eexists _, _. split; [reflexivity|]. eapply vrep_ext; [exact Ht|]. intros n d o r Hn' Hd Ho Hr.
  cbv beta. unfold deval, uprod. simpl. apply rsum_ext. intros k Hk. unfold linsum_w. f_equal. f_equal. apply pairprod_val.
Qed.

Lemma sum_vrep L x N mask v : sum_ok L -> vrep x N (nf L) (sin L) (nrep L) v -> mask_shape mask [N; nf L; sin L; nrep L] ->
  exists y ca, sum_forward L mask x = Ok (y, ca) /\
  vrep y N (nf L) (sout L) (nrep L) (fun n => deval (sum_u L 1) (fun d o r k => keepw mask [n; d; k; r]) (v n)).
Proof.
  intros (Hs & Hl) [Hsx Gx] Hm. unfold sum_forward.
  destruct (apply_mask_get mask x _ Hm Hsx) as (xm & Exm & Sxm & Gxm). rewrite Exm. cbn [bind].
  destruct (wsum_vrep (logits L) (unsqueeze 3 xm) N (nf L) (sin L) (sout L) (nrep L)
     (fun n d k r => keepw mask [n; d; k; r] * v n d k r) Hs Hl) as (t & Et & Ht).
  { unfold unsqueeze. cbn [shape]. rewrite Sxm. reflexivity. }
  { intros n d k r Hn Hd Hk Hr. destruct (Gx n d k r) as [P G]; auto.
    split; [apply Rmult_le_pos; [apply keepw_range|auto]|].
    unfold unsqueeze. cbn [get remove_nth]. apply Gxm; simpl; auto. }
  rewrite Et. cbn [bind]. pose proof Ht as [St _]. rewrite St.
  replace (size (unsqueeze 3 xm) 0) with N by (unfold size, unsqueeze; cbn [shape]; rewrite Sxm; reflexivity).
  replace (size (unsqueeze 3 xm) 1) with (nf L) by (unfold size, unsqueeze; cbn [shape]; rewrite Sxm; reflexivity).
  rewrite eqb_list_refl. cbn [assert bind]. eexists _, _. split; [reflexivity|].
  eapply vrep_ext; [exact Ht|]. intros n d o r Hn Hd Ho Hr. cbv beta. unfold deval, uprod. simpl. apply rsum_ext. intros k Hk.
  unfold linsum_w. f_equal. ring.
Qed.

Lemma linsum2_vrep L x N mask v : linsum2_ok L -> vrep x N (nf L) (sin L) (nrep L) v ->
  mask_shape mask [N; (nf L + 1) / 2; sout L; nrep L]%nat ->
  exists y ca, linsum2_forward L mask x = Ok (y, ca) /\
  vrep y N (linsum_features_out L) (sout L) (nrep L)
    (fun n => deval (pairprod_u (nf L) (sout L)) (fun d o r k => keepw mask [n; d; o; r]) (ueval (sum_u L 1) (v n))).
Proof.
  intros (Hs & Hn & Hl) [Hsx Gx] Hm. unfold linsum2_forward. unfold linsum2_weight_shape in Hl.
  destruct (wsum_vrep (logits L) (unsqueeze 3 x) N (nf L) (sin L) (sout L) (nrep L) v Hs Hl) as (t & Et & Ht).
  { unfold unsqueeze. cbn [shape]. rewrite Hsx. reflexivity. }
  { intros n d k r Hn' Hd Hk Hr. unfold unsqueeze. cbn [get remove_nth]. apply Gx; auto. }
  rewrite Et. cbn [bind]. unfold linsum_features_out, linsum_pad. rewrite div2_half.
  pose proof (left_vrep _ _ _ _ _ _ Ht Hn) as HL.
  destruct (right_vrep _ _ _ _ _ _ Ht Hn) as (rt & E & HR). rewrite E. cbn [bind].
  destruct (badd4_vrep _ _ _ _ _ _ _ _ HL HR) as (q & Eq & [Sq Gq]). rewrite Eq. cbn [bind].
  destruct (apply_mask_get mask q _ Hm Sq) as (pm & Epm & Spm & Gpm). rewrite Epm. cbn [bind].
  eexists _, _. split; [reflexivity|].
  apply (vrep_ext _ _ _ _ _ (fun n d o r => keepw mask [n; d; o; r] *
    (lval2 (fun d o r => rsum (sin L) (fun k => wsoft (sin L) 1 (fun k => get (logits L) [d; k; o; r]) k * v n d k r)) d o r *
     rval2 (nf L) (fun d o r => rsum (sin L) (fun k => wsoft (sin L) 1 (fun k => get (logits L) [d; k; o; r]) k * v n d k r)) d o r))).
  - split; [exact Spm|]. intros n d o r Hn' Hd Ho Hr. destruct (Gq n d o r) as [P G]; auto.
    split; [apply Rmult_le_pos; [apply keepw_range|exact P]|]. apply Gpm; simpl; auto.
  - intros n d o r Hn' Hd Ho Hr. unfold deval, uprod. simpl uK. rewrite rsum_S, rsum_0. simpl uW. simpl ukids. simpl usel.
    rewrite Rplus_0_l, Rmult_1_l. f_equal. rewrite pairprod_val. apply lprod_ext. intros d' Hd'.
    unfold ueval, uprod. simpl. apply rsum_ext. intros k Hk. unfold linsum_w. f_equal. ring.
Qed.

Lemma nsum_nlog n f (g : nat -> R) : (forall i, (i < n)%nat -> 0 <= g i /\ f i = nlog (Fin (g i))) ->
  nsum n f = nlog (Fin (lprod g (seq 0 n))) /\ 0 <= lprod g (seq 0 n).
Proof.
  induction n as [|n IH]; intros H.
  - split; [|simpl; lra]. change (nsum 0 f) with (Fin 0). change (lprod g (seq 0 0)) with 1. rewrite nlog_pos, ln_1 by lra. reflexivity.
  - destruct IH as [IH P]; [intros; apply H; lia|]. destruct (H n ltac:(lia)) as [P' G].
    rewrite nsum_S, IH, G, seq_S_app, lprod_app. cbn [lprod Nat.add]. rewrite Rmult_1_r. split; [apply nadd_nlog; auto|apply Rmult_le_pos; auto].
Qed.
Lemma rootprod_vrep D S x N Rn v : vrep x N D S Rn v ->
  exists y, rootprod_forward D x = Ok y /\ vrep y N 1 S Rn (fun n => ueval (rootprod_u D S) (v n)).
Proof.
  intros [Hx Gx]. destruct x as [sx gx]. simpl in Hx, Gx. subst sx. unfold rootprod_forward, size. cbn [shape nth].
  rewrite Nat.eqb_refl. simpl. eexists. split; [reflexivity|]. split; [reflexivity|].
  intros n d s r Hn Hd Hs Hr. unfold ueval, uprod. simpl uK. rewrite rsum_S, rsum_0. simpl. rewrite Rplus_0_l, Rmult_1_l.
  unfold tsum_keep, reduce_keep, size. cbn [get shape nth set_nth].
  destruct (nsum_nlog D (fun k => gx [n; k; s; r]) (fun k => v n k s r)) as [E P]; [intros; apply Gx; auto|]. auto.
Qed.
Lemma mixing_vrep L x N mask v : mixing_ok L -> shape x = [N; 1; sout L; sin L]%nat ->
  mask_shape mask [N; 1; sout L; sin L]%nat ->
  (forall n y r, (n < N)%nat -> (y < sout L)%nat -> (r < sin L)%nat ->
     0 <= v n y r /\ get x [n; 0%nat; y; r] = nlog (Fin (v n y r))) ->
  exists out ca, mixing_forward L mask x = Ok (out, ca) /\ shape out = [N; 1; sout L]%nat /\
    forall n y, (n < N)%nat -> (y < sout L)%nat ->
      get out [n; 0%nat; y] = nlog (Fin (rsum (sin L) (fun r => mixing_w L 1 y r * (keepw mask [n; 0%nat; y; r] * v n y r)))).
Proof.
  intros (Hs & Hnf & Hl) Hx Hm Gx.
  destruct (apply_mask_get mask x _ Hm Hx) as (xm & Exm & Sxm & Gxm).
  unfold mixing_forward. rewrite Exm. cbn [bind]. destruct xm as [sx gx]. cbn [shape get] in *. subst sx.
  unfold mixing_weight_shape in Hl. rewrite Hnf in Hl. pose proof Hl as [Hls _].
  unfold unsqueeze. rewrite ltlw_shape, Hls. simpl insert_nth.
  bcast. cbn [bind]. eexists _, _. split; [reflexivity|]. split; [reflexivity|].
  intros n y Hn Hy. unfold tlogsumexp, reduce, size. cbn [get shape nth insert_nth].
  apply nlogsumexp_nlog; auto. intros r Hr. destruct (Gx n y r) as [P G]; auto.
  assert (P0: 0 <= keepw mask [n; 0%nat; y; r] * v n y r) by (apply Rmult_le_pos; [apply keepw_range|auto]).
  assert (P1: 0 < mixing_w L 1 y r) by (apply wsoft_pos; auto).
  split; [apply Rmult_le_pos; lra|].
  unfold bproj. simpl length. simpl skipn. cbn [bidx]. clamps. cbn [remove_nth].
  rewrite (ltlw_get (logits L) 2 1 [0%nat; y; r] (fun k => toR (get (logits L) [0%nat; y; k]))).
  - rewrite (Gxm [n; 0%nat; y; r] (v n y r)) by (auto; simpl; auto). unfold size. rewrite Hls. cbn [nth].
    rewrite <- nlog_pos by (apply rsoftmax_pos; auto). rewrite nadd_nlog by (auto; left; apply rsoftmax_pos; auto).
    f_equal. f_equal. rewrite Rmult_comm. reflexivity.
  - lra.
  - simpl; lia.
  - unfold size. rewrite Hls. auto.
  - unfold size. rewrite Hls. simpl. intros k' Hk'. apply lfin_get with (s := [1; sout L; sin L]%nat); auto. simpl; auto.
Qed.

(** * Masks that the loops return *)
Definition kept_along (mask : option (tensor bool)) (d : nat) (s : list nat) : Prop :=
  match mask with
  | None => True
  | Some m => forall idx, inb (remove_nth d s) idx -> exists j, (j < nth d s 0)%nat /\ get m (insert_nth d j idx) = false
  end.
Lemma with_dropout_ok {A} coin p tr d fuel s (fwd : option (tensor bool) -> res A) y :
  with_dropout coin p tr d fuel s fwd = Some (Ok y) ->
  exists mask, fwd mask = Ok y /\ mask_shape mask s /\ kept_along mask d s /\ (p <= 0 -> mask = None).
Proof.
  unfold with_dropout. destruct (Rlt_dec 0 p) as [P|P].
  - destruct tr.
    + unfold drop_mask. destruct (drop_loop _ _ _ _ _) as [[m|]|] eqn:E; [|discriminate|discriminate]. intros H. injection H as H.
      apply drop_loop_keeps in E as [Sm Km]. exists (Some m). split; auto. split; [exact Sm|]. split; [exact Km|lra].
    + intros H. injection H as H. exists None. simpl. auto.
  - intros H. injection H as H. exists None. simpl. auto.
Qed.
Lemma keepw_kept mask idx : (exists m, mask = Some m /\ get m idx = false) \/ mask = None -> keepw mask idx = 1.
Proof. intros [(m & -> & E)| ->]; cbn [keepw]; [rewrite E|]; reflexivity. Qed.

Section Net.
Context {V : Type}.
Variable coins : nat -> nat -> list nat -> bool.
Variables (p : R) (training : bool) (fuel : nat).
Variable E : einet V.
Notation ltrain := (layer_train coins p training fuel E).

(** Layers that keep a child of every node. *)
Definition steady (Rn : nat) (l : layer) : Prop :=
  match l with
  | LEin _ | LLin _ | LRoot _ => True
  | LLin2 _ => layer_rate p E l <= 0
  | LSum _ => layer_rate p E l <= 0 \/ Rn = 1%nat
  end.

Lemma layer_train_rep Rn D S i l N x v y : layer_ok Rn D S l -> (forall L, l <> LEin L) -> vrep x N D S Rn v ->
  ltrain i l x = Some (Ok y) ->
  exists w, vrep y N (layer_dout l) (layer_sout S l) Rn w /\
    (forall n, (n < N)%nat -> vle (layer_dout l) (layer_sout S l) Rn (w n) (evals (layer_us 1 S l) (v n))) /\
    (steady Rn l -> (forall n, (n < N)%nat -> vpos D S Rn (v n)) -> forall n, (n < N)%nat -> vpos (layer_dout l) (layer_sout S l) Rn (w n)).
Proof.
  intros Hok Hne Hx H.
  assert (Hv: forall n, (n < N)%nat -> vle D S Rn (v n) (v n)).
  { intros n Hn d s r Hd Hs Hr. destruct Hx as [_ Gx]. destruct (Gx n d s r); auto. lra. }
  pose proof (layer_chain 1 _ _ _ _ Hok) as Hch.
  destruct l as [L|L|L|L|D']; cbn [layer_ok layer_us layer_dout layer_sout steady layer_train] in *; [destruct (Hne L); auto| | | |].
  - destruct Hok as [Hok (<- & <- & <-)]. destruct Hch as (Hw & _ & _ & _).
    destruct (linsum_train _ _ _ _ _ _) as [[[y0 c]|]|] eqn:T; [|discriminate|discriminate]. cbn [obind fst] in H. injection H as H. subst y0.
    unfold linsum_train in T. apply with_dropout_ok in T as (mask & F & Sm & Km & _). pose proof Hx as [Sx _].
    rewrite (linsum_drop_shape x _ _ _ _ Sx) in Sm, Km.
    destruct (linsum_vrep L x N mask v Hok Hx Sm) as (y1 & ca & F1 & R1). rewrite F in F1. injection F1 as <- _.
    eexists. split; [exact R1|]. split.
    + intros n Hn. apply (deval_le (nrep L) (linsum_u L 1)); auto. intros; apply keepw_range.
    + intros _ Hp n Hn d o r Hd Ho Hr. apply (deval_pos (nrep L) (linsum_u L 1)); auto; [intros; apply keepw_range|].
      destruct Hok as (Hs & Hn2 & _). destruct mask as [m|].
      * unfold linsum_features_out, linsum_pad in Hd. rewrite div2_half in Hd.
        destruct (Km [n; d; 0%nat; r]) as (j & Hj & Ej); [simpl; repeat split; auto; lia|]. exists j. split; [exact Hj|].
        apply keepw_kept. left. exists m. split; [reflexivity|exact Ej].
      * exists 0%nat. split; [exact Hs|reflexivity].
  - destruct Hok as [Hok (He & <- & <- & <-)]. destruct Hch as (Hw & _ & _ & Hw2 & _ & _ & _).
    destruct (linsum2_train _ _ _ _ _ _) as [[[y0 c]|]|] eqn:T; [|discriminate|discriminate]. cbn [obind fst] in H. injection H as H. subst y0.
    unfold linsum2_train in T. apply with_dropout_ok in T as (mask & F & Sm & Km & Hz). pose proof Hx as [Sx _].
    rewrite (linsum2_drop_shape x _ _ _ (sout L) _ Sx) in Sm, Km.
    destruct (linsum2_vrep L x N mask v Hok Hx Sm) as (y1 & ca & F1 & R1). rewrite F in F1. injection F1 as <- _.
    unfold linsum_features_out, linsum_pad in *. rewrite div2_half in *. eexists. split; [exact R1|]. split.
    + intros n Hn. apply (deval_le (nrep L) (pairprod_u (nf L) (sout L))); auto; [intros; apply keepw_range|].
      apply (ueval_mono (nrep L) (sum_u L 1) (v n) (v n) Hw). apply Hv; auto.
    + intros Hr0 Hp n Hn d o r Hd Ho Hr. rewrite (Hz Hr0). apply (deval_pos (nrep L) (pairprod_u (nf L) (sout L))); auto.
      * intros d' o' r' Hd' Ho' Hr'. apply (ueval_pos (nrep L) (sum_u L 1) (v n) Hw); auto.
      * intros; apply keepw_range.
      * exists 0%nat. split; [simpl; lia|reflexivity].
  - destruct Hok as [Hok (<- & <- & <-)]. destruct Hch as (Hw & _ & _ & _).
    destruct (sum_train _ _ _ _ _ _) as [[[y0 c]|]|] eqn:T; [|discriminate|discriminate]. cbn [obind fst] in H. injection H as H. subst y0.
    unfold sum_train in T. apply with_dropout_ok in T as (mask & F & Sm & Km & Hz). pose proof Hx as [Sx _]. rewrite Sx in Sm, Km.
    destruct (sum_vrep L x N mask v Hok Hx Sm) as (y1 & ca & F1 & R1). rewrite F in F1. injection F1 as <- _.
    eexists. split; [exact R1|]. split.
    + intros n Hn. apply (deval_le (nrep L) (sum_u L 1)); auto. intros; apply keepw_range.
    + intros Hr0 Hp n Hn d o r Hd Ho Hr. apply (deval_pos (nrep L) (sum_u L 1)); auto; [intros; apply keepw_range|].
      destruct Hok as (Hs & _). exists 0%nat. split; [exact Hs|]. apply keepw_kept.
      destruct mask as [m|]; [|right; reflexivity]. destruct Hr0 as [Hr0|Hr0]; [specialize (Hz Hr0); discriminate|].
      left. exists m. split; [reflexivity|]. destruct (Km [n; d; 0%nat]) as (j & Hj & Ej); [simpl; auto|].
      cbn [nth] in Hj. assert (j = 0%nat) by lia. assert (r = 0%nat) by lia. subst j r. exact Ej.
  - subst D'. destruct Hch as (Hw & _ & _ & _). destruct (rootprod_vrep D S x N Rn v Hx) as (y1 & F1 & R1). rewrite F1 in H. injection H as <-.
    eexists. split; [exact R1|]. split.
    + intros n Hn. apply (ueval_mono Rn (rootprod_u D S) (v n) (v n) Hw). apply Hv; auto.
    + intros _ Hp n Hn. apply (ueval_pos Rn (rootprod_u D S) (v n) Hw). apply Hp; auto.
Qed.

Lemma train_layers_rep Rn ls : forall D S D' S' i N x v y, layers_ok Rn ls D S D' S' ->
  (forall l, In l ls -> forall L, l <> LEin L) -> vrep x N D S Rn v ->
  train_layers coins p training fuel E i ls x = Some (Ok y) ->
  exists w, vrep y N D' S' Rn w /\
    (forall n, (n < N)%nat -> vle D' S' Rn (w n) (evals (layers_us 1 S ls) (v n))) /\
    ((forall l, In l ls -> steady Rn l) -> (forall n, (n < N)%nat -> vpos D S Rn (v n)) -> forall n, (n < N)%nat -> vpos D' S' Rn (w n)).
Proof.
  induction ls as [|l ls IH]; intros D S D' S' i N x v y Hok Hne Hx H; cbn [layers_ok layers_us train_layers] in *.
  - destruct Hok as [<- <-]. injection H as <-. exists v. split; auto. split; auto.
    intros n Hn d s r Hd Hs Hr. destruct Hx as [_ Gx]. destruct (Gx n d s r); auto. simpl. lra.
  - destruct Hok as [H1 H2]. destruct (ltrain i l x) as [[z|]|] eqn:T; [|discriminate|discriminate]. cbn [obind] in H.
    destruct (layer_train_rep Rn D S i l N x v z H1 (Hne l (or_introl eq_refl)) Hx T) as (w1 & R1 & L1 & P1).
    destruct (IH _ _ _ _ _ N z w1 y H2 (fun l' Hl => Hne l' (or_intror Hl)) R1 H) as (w & R & Lw & P).
    exists w. split; auto. split.
    + intros n Hn d s r Hd Hs Hr. rewrite evals_app. specialize (Lw n Hn d s r Hd Hs Hr).
      destruct (evals_mono Rn (layers_us 1 (layer_sout S l) ls) _ _ _ _ _ _ (layers_chain 1 _ _ _ _ _ _ H2) (L1 n Hn) d s r Hd Hs Hr). lra.
    + intros Hs Hp. apply P; [intros; apply Hs; right; auto|]. apply P1; [apply Hs; left; auto|auto].
Qed.

(** Einsum layers drop nothing. *)
Lemma train_layers_einsum ls : (forall l, In l ls -> exists L, l = LEin L) -> forall i x,
  train_layers coins p training fuel E i ls x = Some (bind (forward_layers ls x) (fun yc => Ok (fst yc))).
Proof.
  induction ls as [|l ls IH]; intros H i x; cbn [train_layers forward_layers]; [reflexivity|].
  destruct (H l (or_introl eq_refl)) as (L & ->). cbn [layer_train layer_forward layer_rate]. unfold einsum_train.
  destruct (Rlt_dec 0 0) as [Z|_]; [lra|]. destruct (einsum_forward L x) as [[y c]|e]; cbn [bind obind fst]; [|reflexivity].
  rewrite (IH (fun l Hl => H l (or_intror Hl))). destruct (forward_layers ls y) as [[z cs]|e]; reflexivity.
Qed.

Definition no_einsum : Prop := forall l, In l (e_layers E) -> forall L, l <> LEin L.
Definition all_einsum : Prop := forall l, In l (e_layers E) -> exists L, l = LEin L.
Hypothesis HE : einet_ok E.
Hypothesis Hkind : no_einsum \/ all_einsum.
Let G := fnet E.

Lemma train_layers_below N x v y : trep x N (leaf_out E) (e_L E) (e_R E) v ->
  train_layers coins p training fuel E 0 (e_layers E) x = Some (Ok y) ->
  exists w, vrep y N 1 (e_K E) (e_R E) w /\
    (forall n, (n < N)%nat -> vle 1 (e_K E) (e_R E) (w n) (evals (layers_us 1 (e_L E) (e_layers E)) (v n))) /\
    ((forall l, In l (e_layers E) -> steady (e_R E) l) -> forall n, (n < N)%nat -> vpos 1 (e_K E) (e_R E) (w n)).
Proof.
  intros Hx H. destruct Hkind as [Hk|Hk].
  - destruct (train_layers_rep (e_R E) _ _ _ _ _ 0%nat N x v y (eo_layers E HE) Hk (trep_vrep _ _ _ _ _ _ Hx) H) as (w & R & L & P).
    exists w. split; auto. split; auto. intros Hs. apply P; auto. intros n Hn d s r Hd Hs' Hr. destruct Hx as [_ Gx]. apply Gx; auto.
  - rewrite train_layers_einsum in H by auto. destruct (forward_layers_rep _ _ _ _ _ _ N x v (eo_layers E HE) Hx) as (z & cs & Ez & Hz & _).
    rewrite Ez in H. cbn [bind fst] in H. injection H as <-. eexists. split; [apply trep_vrep; exact Hz|]. destruct Hz as [_ Gz]. split.
    + intros n Hn d s r Hd Hs Hr. destruct (Gz n d s r); auto. lra.
    + intros _ n Hn d s r Hd Hs Hr. destruct (Gz n d s r); auto.
Qed.

Lemma train_upper_below N x0 x v y : permuted E x0 = Ok x -> trep x N (leaf_out E) (e_L E) (e_R E) v ->
  train_upper coins p training fuel E x0 = Some (Ok y) ->
  shape y = [N; e_K E] /\ forall n k, (n < N)%nat -> (k < e_K E)%nat -> exists a,
    get y [n; k] = nlog (Fin a) /\
    0 <= a <= rsum (e_R E) (fun r => emix E 1 k r * evals (layers_us 1 (e_L E) (e_layers E)) (v n) 0%nat k r) /\
    ((forall l, In l (e_layers E) -> steady (e_R E) l) -> 0 < a).
Proof.
  intros Hp Hx H. unfold train_upper in H. fold (permuted E x0) in H. rewrite Hp in H. cbn [obind] in H.
  destruct (train_layers _ _ _ _ _ _ _ _) as [[z|]|] eqn:T; [|discriminate|discriminate]. cbn [obind] in H.
  destruct (train_layers_below N x v z Hx T) as (w & [Sz Gz] & Lw & Pw).
  unfold size4 in H. rewrite Sz in H. cbn [bind Nat.eqb assert guard] in H. rewrite Nat.eqb_refl in H. cbn [assert guard bind obind] in H.
  destruct (Nat.ltb_spec 1 (e_R E)) as [HR|HR].
  - destruct (eo_mix E HE HR) as (m & Em & Hm & Hs1 & Hs2). rewrite Em in H. cbn [attr obind] in H.
    destruct (mixing_train _ _ _ _ _ _) as [[[o c]|]|] eqn:M; [|discriminate|discriminate]. cbn [obind fst] in H.
    unfold mixing_train in M. apply with_dropout_ok in M as (mask & F & Sm & Km & _). rewrite Sz in Sm, Km.
    destruct (mixing_vrep m z N mask (fun n y r => w n 0%nat y r) Hm) as (o' & ca & Eo & So & Go).
    { rewrite Sz, Hs1, Hs2. reflexivity. } { rewrite Hs1, Hs2. exact Sm. }
    { intros n y0 r Hn Hy Hr. apply Gz; auto; lia. }
    rewrite F in Eo. injection Eo as <- _. destruct o as [so go]. cbn [shape get] in *. subst so.
    rewrite squeeze_1 in H by reflexivity. cbn [remove_nth shape] in H. rewrite Hs2, eqb_list_refl in H. cbn [assert guard bind] in H. injection H as <-.
    split; [reflexivity|]. intros n k Hn Hk. cbn [get insert_nth].
    assert (W: forall r, (r < sin m)%nat -> 0 < mixing_w m 1 k r) by (intros r Hr; destruct Hm as (Hs & _); apply wsoft_pos; auto).
    exists (rsum (sin m) (fun r => mixing_w m 1 k r * (keepw mask [n; 0%nat; k; r] * w n 0%nat k r))).
    split; [apply Go; auto; lia|].
    assert (Q: forall r, (r < sin m)%nat -> 0 <= w n 0%nat k r <= evals (layers_us 1 (e_L E) (e_layers E)) (v n) 0%nat k r) by (intros r Hr; apply Lw; auto; lia).
    split; [split|].
    + apply rsum_nonneg. intros r Hr. apply Rmult_le_pos; [left; auto|]. apply Rmult_le_pos; [apply keepw_range|apply Q; auto].
    + rewrite <- Hs1. apply rsum_le. intros r Hr. unfold emix. rewrite Em. destruct (Nat.ltb_spec 1 (e_R E)); [|lia].
      apply Rmult_le_compat_l; [left; auto|]. pose proof (keepw_range mask [n; 0%nat; k; r]). pose proof (Q r Hr).
      apply Rle_trans with (1 * w n 0%nat k r); [apply Rmult_le_compat_r; lra|lra].
    + intros Hst. assert (J: exists j, (j < sin m)%nat /\ keepw mask [n; 0%nat; k; j] = 1).
      { destruct mask as [mm|].
        - destruct (Km [n; 0%nat; k]) as (j & Hj & Ej); [simpl; auto|]. cbn [nth] in Hj. exists j. split; [lia|].
          apply keepw_kept. left. exists mm. split; [reflexivity|exact Ej].
        - exists 0%nat. split; [lia|reflexivity]. }
      destruct J as (j & Hj & Ej).
      apply Rlt_le_trans with (mixing_w m 1 k j * (keepw mask [n; 0%nat; k; j] * w n 0%nat k j)).
      * rewrite Ej, Rmult_1_l. apply Rmult_lt_0_compat; [auto|]. apply Pw; auto; lia.
      * apply (term_le_sum (sin m) (fun r => mixing_w m 1 k r * (keepw mask [n; 0%nat; k; r] * w n 0%nat k r)) j Hj).
        intros r Hr. apply Rmult_le_pos; [left; auto|]. apply Rmult_le_pos; [apply keepw_range|apply Q; auto].
  - pose proof (eo_R E HE). assert (ER: e_R E = 1%nat) by lia. cbn [obind] in H.
    destruct z as [sz gz]. cbn [shape get] in *. subst sz. rewrite ER in *. rewrite squeeze_1 in H by reflexivity. cbn [remove_nth] in H.
    rewrite squeeze_1 in H by reflexivity. cbn [remove_nth shape] in H. rewrite eqb_list_refl in H. cbn [assert guard bind] in H. injection H as <-.
    split; [reflexivity|]. intros n k Hn Hk. cbn [get insert_nth]. exists (w n 0%nat k 0%nat).
    split; [apply Gz; auto|]. rewrite rsum_S, rsum_0. unfold emix. rewrite ER. cbn [Nat.ltb Nat.leb].
    specialize (Lw n Hn 0%nat k 0%nat ltac:(lia) Hk ltac:(lia)).
    split; [destruct (e_mixing E); lra|]. intros Hst. apply Pw; auto.
Qed.

Theorem forward_train_below N x ms y : input_ok E N x ms -> forward_train coins p training fuel E x ms = Some (Ok y) ->
  shape y = [N; e_K E] /\ forall n k, (n < N)%nat -> (k < e_K E)%nat -> exists a,
    get y [n; k] = nlog (Fin a) /\ 0 <= a <= neteval (fnet E) (lval (pdf (leaf_of (e_leaf E))) (row x ms n)) k /\
    ((forall l, In l (e_layers E) -> steady (e_R E) l) -> 0 < a).
Proof.
  intros Hi H. destruct (prepare_ok E HE N x (proj1 Hi)) as (z & Ez & Sz & Gz).
  pose proof (input_data E HE N x ms z Hi Sz Gz) as Hd.
  destruct (leaf_stage_rep E HE N z ms Hd) as (x1 & E1 & R1). unfold leaf_stage in E1.
  unfold forward_train in H. rewrite Ez in H. cbn [obind] in H.
  destruct (leaf_forward (e_leaf E) z ms) as [y0|]; [|discriminate]. cbn [bind obind] in *.
  destruct (merge_channels E y0) as [y1|]; [|discriminate]. cbn [bind obind] in *.
  destruct (train_upper_below N y1 x1 _ y E1 R1 H) as [Sy Gy]. split; auto.
  intros n k Hn Hk. destruct (Gy n k Hn Hk) as (a & Ga & Ba & Pa). exists a. split; auto. split; auto.
  replace (neteval (fnet E) (lval (pdf (leaf_of (e_leaf E))) (row x ms n)) k)
    with (neteval (fnet E) (lval (pdf (leaf_of (e_leaf E))) (seen z ms n)) k); [exact Ba|].
  apply neteval_ext; auto; [apply fnet_wf; auto|]. apply (seen_row E N); auto.
Qed.
End Net.

Lemma layers_ok_split Rn a : forall b D S D' S', layers_ok Rn (a ++ b) D S D' S' -> exists D1 S1, layers_ok Rn a D S D1 S1 /\ layers_ok Rn b D1 S1 D' S'.
Proof.
  induction a as [|l a IH]; intros b D S D' S' H; cbn [app layers_ok] in *.
  - exists D, S. auto.
  - destruct H as [H1 H2]. destruct (IH _ _ _ _ _ H2) as (D1 & S1 & A & B). exists D1, S1. auto.
Qed.

(** * Runs that return *)
(** In its first draw the layer keeps something along axis [d] everywhere. *)
Definition draws_ok (coin : list nat -> bool) (d : nat) (s : list nat) : Prop :=
  forall idx, inb (remove_nth d s) idx -> exists j, (j < nth d s 0)%nat /\ coin (insert_nth d j idx) = false.
Lemma with_dropout_runs {A} coin p tr d fuel s (fwd : option (tensor bool) -> res A) :
  draws_ok (coin 0%nat) d s ->
  exists mask, with_dropout coin p tr d fuel s fwd = Some (fwd mask) /\ mask_shape mask s /\
    (mask = Some (mkT s (coin 0%nat)) \/ mask = None) /\ (0 < p -> tr = true -> mask = Some (mkT s (coin 0%nat))).
Proof.
  intros H. unfold with_dropout. destruct (Rlt_dec 0 p) as [P|P]; [destruct tr|].
  - unfold drop_mask. rewrite drop_loop_done; [exists (Some (mkT s (coin 0%nat))); repeat split; auto|].
    apply tany_false. intros idx Hi. unfold all_dropped, reduce, size in *. cbn [shape get] in *.
    destruct (_ =? _)%nat eqn:C; [|reflexivity]. rewrite count_full in C. destruct (H idx Hi) as (j & Hj & Ej). rewrite (C j Hj) in Ej. discriminate.
  - exists None. split; [reflexivity|]. split; [exact I|]. split; [auto|discriminate].
  - exists None. split; [reflexivity|]. split; [exact I|]. split; [auto|lra].
Qed.
Lemma kept_draws (coin : list nat -> bool) d s : (0 < nth d s 0)%nat -> (forall idx, coin idx = false) -> draws_ok coin d s.
Proof. intros H C idx _. exists 0%nat. auto. Qed.

Section Runs.
Context {V : Type}.
Variable coins : nat -> nat -> list nat -> bool.
Variables (p : R) (training : bool) (fuel : nat).
Variable E : einet V.
Notation ltrain := (layer_train coins p training fuel E).

(** A layer that drops nothing computes its value. *)
Lemma layer_train_kept Rn D S i l N x v : layer_ok Rn D S l -> (0 < Rn)%nat -> (forall L, l <> LEin L) -> vrep x N D S Rn v ->
  (forall L, l = LLin2 L -> (0 < sout L)%nat) -> (forall idx, coins i 0%nat idx = false) ->
  exists y, ltrain i l x = Some (Ok y) /\ vrep y N (layer_dout l) (layer_sout S l) Rn (fun n => evals (layer_us 1 S l) (v n)).
Proof.
  intros Hok HR Hne Hx Ho Hc.
  assert (K: forall mask s idx, mask = Some (mkT s (coins i 0%nat)) \/ mask = None -> keepw mask idx = 1).
  { intros mask s idx [->| ->]; [cbn [keepw get]; rewrite Hc|]; reflexivity. }
  destruct l as [L|L|L|L|D']; cbn [layer_ok layer_us layer_dout layer_sout layer_train] in *; [destruct (Hne L); auto| | | |].
  - destruct Hok as [Hok (<- & <- & <-)]. pose proof Hx as [Sx _]. unfold linsum_train. rewrite (linsum_drop_shape x _ _ _ _ Sx).
    destruct (with_dropout_runs (coins i) (layer_rate p E (LLin L)) training 2 fuel _ (fun m => linsum_forward L m x)
      (kept_draws _ 2 [N; (nf L + 1) / 2; sin L; 1; nrep L]%nat ltac:(destruct Hok as (Hs & _); exact Hs) Hc)) as (mask & -> & Sm & Em & _).
    destruct (linsum_vrep L x N mask v Hok Hx Sm) as (y & ca & -> & R1). cbn [obind fst]. exists y. split; [reflexivity|].
    eapply vrep_ext; [exact R1|]. intros n d s r _ _ _ _. unfold deval, ueval. cbn [evals]. apply rsum_ext. intros k _. rewrite (K _ _ _ Em). unfold ueval; ring.
  - destruct Hok as [Hok (He & <- & <- & <-)]. pose proof Hx as [Sx _]. unfold linsum2_train. rewrite (linsum2_drop_shape x _ _ _ (sout L) _ Sx).
    destruct (with_dropout_runs (coins i) (layer_rate p E (LLin2 L)) training 2 fuel _ (fun m => linsum2_forward L m x)
      (kept_draws _ 2 [N; (nf L + 1) / 2; sout L; nrep L]%nat (Ho L eq_refl) Hc)) as (mask & -> & Sm & Em & _).
    destruct (linsum2_vrep L x N mask v Hok Hx Sm) as (y & ca & -> & R1). cbn [obind fst]. exists y. split; [reflexivity|].
    unfold linsum_features_out, linsum_pad in *. rewrite div2_half in *.
    eapply vrep_ext; [exact R1|]. intros n d s r _ _ _ _. cbn [evals].
    set (U := pairprod_u (nf L) (sout L)). transitivity (rsum (uK U) (fun k => uW U d s r k * uprod U (ueval (sum_u L 1) (v n)) d s r k)); [|reflexivity].
    unfold deval. apply rsum_ext. intros k _. rewrite (K _ _ _ Em). ring.
  - destruct Hok as [Hok (<- & <- & <-)]. pose proof Hx as [Sx _]. unfold sum_train. rewrite Sx.
    destruct (with_dropout_runs (coins i) (layer_rate p E (LSum L)) training 3 fuel _ (fun m => sum_forward L m x)
      (kept_draws _ 3 [N; nf L; sin L; nrep L]%nat HR Hc)) as (mask & -> & Sm & Em & _).
    destruct (sum_vrep L x N mask v Hok Hx Sm) as (y & ca & -> & R1). cbn [obind fst]. exists y. split; [reflexivity|].
    eapply vrep_ext; [exact R1|]. intros n d s r _ _ _ _. unfold deval, ueval. cbn [evals]. apply rsum_ext. intros k _. rewrite (K _ _ _ Em). unfold ueval; ring.
  - subst D'. destruct (rootprod_vrep D S x N Rn v Hx) as (y & -> & R1). exists y. split; [reflexivity|]. exact R1.
Qed.
Lemma train_layers_kept Rn ls : forall D S D' S' i N x v, layers_ok Rn ls D S D' S' -> (0 < Rn)%nat ->
  (forall l, In l ls -> forall L, l <> LEin L) -> vrep x N D S Rn v -> (forall L, In (LLin2 L) ls -> (0 < sout L)%nat) ->
  (forall j idx, (i <= j < i + length ls)%nat -> coins j 0%nat idx = false) ->
  exists y, train_layers coins p training fuel E i ls x = Some (Ok y) /\ vrep y N D' S' Rn (fun n => evals (layers_us 1 S ls) (v n)).
Proof.
  induction ls as [|l ls IH]; intros D S D' S' i N x v Hok HR Hne Hx Ho Hc; cbn [layers_ok layers_us train_layers length] in *.
  - destruct Hok as [<- <-]. exists x. split; [reflexivity|exact Hx].
  - destruct Hok as [H1 H2]. destruct (layer_train_kept Rn D S i l N x v H1 HR (Hne l (or_introl eq_refl)) Hx) as (z & -> & Hz); [intros L ->; apply Ho; left; auto|intros; apply Hc; lia|].
    cbn [obind]. destruct (IH _ _ _ _ (1 + i)%nat N z _ H2 HR (fun l' Hl => Hne l' (or_intror Hl)) Hz) as (y & Ey & Hy); [intros; apply Ho; right; auto|intros; apply Hc; lia|].
    exists y. split; [exact Ey|]. eapply vrep_ext; [exact Hy|]. intros. rewrite evals_app. reflexivity.
Qed.
Lemma train_layers_app a : forall b i x, train_layers coins p training fuel E i (a ++ b) x =
  obind (train_layers coins p training fuel E i a x) (fun y => train_layers coins p training fuel E (i + length a)%nat b y).
Proof.
  induction a as [|l a IH]; intros b i x; cbn [app train_layers length obind].
  - rewrite Nat.add_0_r. reflexivity.
  - destruct (ltrain i l x) as [[z|e]|]; cbn [obind]; auto. rewrite IH. replace (S i + length a)%nat with (i + S (length a))%nat by lia. reflexivity.
Qed.

(** The part after the layers, for values [w] and a first draw that keeps something. *)
Hypothesis HE : einet_ok E.
Lemma train_top N z w : vrep z N 1 (e_K E) (e_R E) w -> draws_ok (coins (length (e_layers E)) 0%nat) 3 [N; 1; e_K E; e_R E]%nat ->
  forall x0 x, permuted E x0 = Ok x -> train_layers coins p training fuel E 0 (e_layers E) x = Some (Ok z) ->
  exists y mask, train_upper coins p training fuel E x0 = Some (Ok y) /\ shape y = [N; e_K E] /\
    (mask = Some (mkT [N; 1; e_K E; e_R E]%nat (coins (length (e_layers E)) 0%nat)) \/ mask = None) /\
    (0 < p -> training = true -> (1 < e_R E)%nat -> mask = Some (mkT [N; 1; e_K E; e_R E]%nat (coins (length (e_layers E)) 0%nat))) /\
    ((e_R E <= 1)%nat -> mask = None) /\
    forall n k, (n < N)%nat -> (k < e_K E)%nat ->
      get y [n; k] = nlog (Fin (rsum (e_R E) (fun r => emix E 1 k r * (keepw mask [n; 0%nat; k; r] * w n 0%nat k r)))).
Proof.
  intros [Sz Gz] Hd x0 x Hp Ht. unfold train_upper. fold (permuted E x0). rewrite Hp. cbn [obind]. rewrite Ht. cbn [obind].
  unfold size4. rewrite Sz. cbn [bind Nat.eqb assert guard]. rewrite Nat.eqb_refl. cbn [assert guard bind obind].
  destruct (Nat.ltb_spec 1 (e_R E)) as [HR|HR].
  - destruct (eo_mix E HE HR) as (m & Em & Hm & Hs1 & Hs2). rewrite Em. cbn [attr obind].
    unfold mixing_train. rewrite Sz.
    destruct (with_dropout_runs (coins (length (e_layers E))) p training 3 fuel _ (fun mk => mixing_forward m mk z) Hd) as (mask & -> & Sm & Dm & Tm).
    destruct (mixing_vrep m z N mask (fun n y r => w n 0%nat y r) Hm) as (o & ca & -> & So & Go).
    { rewrite Sz, Hs1, Hs2. reflexivity. } { rewrite Hs1, Hs2. exact Sm. }
    { intros n y0 r Hn Hy Hr. apply Gz; auto; lia. }
    cbn [obind fst]. destruct o as [so go]. cbn [shape get] in *. subst so.
    rewrite squeeze_1 by reflexivity. cbn [remove_nth shape]. rewrite Hs2, eqb_list_refl. cbn [assert guard bind].
    eexists. exists mask. split; [reflexivity|]. split; [reflexivity|]. split; [exact Dm|]. split; [intros; apply Tm; auto|]. split; [lia|].
    intros n k Hn Hk. cbn [get insert_nth]. rewrite Go by (auto; lia). rewrite Hs1. do 2 f_equal. apply rsum_ext. intros r Hr.
    unfold emix. rewrite Em. destruct (Nat.ltb_spec 1 (e_R E)); [reflexivity|lia].
  - pose proof (eo_R E HE). assert (ER: e_R E = 1%nat) by lia. cbn [obind].
    destruct z as [sz gz]. cbn [shape get] in *. subst sz. rewrite ER in *. rewrite squeeze_1 by reflexivity. cbn [remove_nth].
    rewrite squeeze_1 by reflexivity. cbn [remove_nth shape]. rewrite eqb_list_refl. cbn [assert guard bind].
    eexists. exists None. split; [reflexivity|]. split; [reflexivity|]. split; [auto|]. split; [lia|]. split; [auto|].
    intros n k Hn Hk. cbn [get insert_nth]. destruct (Gz n 0%nat k 0%nat) as [_ ->]; auto. do 2 f_equal.
    rewrite rsum_S, rsum_0. unfold emix. rewrite ER. cbn [Nat.ltb Nat.leb keepw]. destruct (e_mixing E); ring.
Qed.

(** The values the leaf layer hands to the other layers. *)
Lemma forward_train_stage N x ms : input_ok E N x ms -> exists x0 x1,
  forward_train coins p training fuel E x ms = train_upper coins p training fuel E x0 /\ permuted E x0 = Ok x1 /\
  exists z, (forall n, (n < N)%nat -> qagree (fnet E) (lval (pdf (leaf_of (e_leaf E))) (seen z ms n)) (lval (pdf (leaf_of (e_leaf E))) (row x ms n))) /\
  trep x1 N (leaf_out E) (e_L E) (e_R E) (fun n => leafval (fnet E) (lval (pdf (leaf_of (e_leaf E))) (seen z ms n))).
Proof.
  intros Hi. destruct (prepare_ok E HE N x (proj1 Hi)) as (z & Ez & Sz & Gz).
  pose proof (input_data E HE N x ms z Hi Sz Gz) as Hd.
  destruct (leaf_stage_rep E HE N z ms Hd) as (x1 & E1 & R1). unfold leaf_stage in E1.
  unfold forward_train. rewrite Ez. cbn [obind].
  destruct (leaf_forward (e_leaf E) z ms) as [y0|]; [|discriminate]. cbn [bind obind] in *.
  destruct (merge_channels E y0) as [y1|]; [|discriminate]. cbn [bind obind] in *.
  exists y1, x1. split; [reflexivity|]. split; [exact E1|]. exists z. split; [|exact R1].
  intros n Hn. apply (seen_row E N); auto.
Qed.
End Runs.

(** * Training switched off *)
Lemma obind_some {A B} (m : res A) (k : A -> res B) (h : A -> option (res B)) : (forall a, h a = Some (k a)) -> obind (Some m) h = Some (bind m k).
Proof. intros H. destruct m; cbn [obind bind]; auto. Qed.
Section Off.
Context {V : Type}.
Variable coins : nat -> nat -> list nat -> bool.
Variables (p : R) (training : bool) (fuel : nat).
Hypothesis Hoff : training = false \/ p <= 0.
Lemma switched_off q : q = p \/ q = 0 -> (if Rlt_dec 0 q then training else false) = false.
Proof. intros H. destruct (Rlt_dec 0 q); auto. destruct Hoff; auto. destruct H; subst; lra. Qed.
Lemma layer_rate_cases (E : einet V) l : layer_rate p E l = p \/ layer_rate p E l = 0.
Proof. destruct l; cbn [layer_rate]; auto. destruct (e_perm E); auto. Qed.
Lemma layer_train_off (E : einet V) i l x : layer_train coins p training fuel E i l x = Some (bind (layer_forward l x) (fun yc => Ok (fst yc))).
Proof.
  pose proof (layer_rate_cases E l) as Hq. unfold layer_train, einsum_train, linsum_train, linsum2_train, sum_train, with_dropout.
  destruct l as [s|s|s|s|D]; rewrite ?(switched_off _ Hq); cbn [layer_forward].
  - destruct (einsum_forward s x) as [[y c]|]; reflexivity.
  - destruct (linsum_forward s None x) as [[y c]|]; reflexivity.
  - destruct (linsum2_forward s None x) as [[y c]|]; reflexivity.
  - destruct (sum_forward s None x) as [[y c]|]; reflexivity.
  - destruct (rootprod_forward D x); reflexivity.
Qed.
Lemma train_layers_off (E : einet V) ls : forall i x,
  train_layers coins p training fuel E i ls x = Some (bind (forward_layers ls x) (fun yc => Ok (fst yc))).
Proof.
  induction ls as [|l ls IH]; intros i x; cbn [train_layers forward_layers]; [reflexivity|].
  rewrite layer_train_off. destruct (layer_forward l x) as [[y c]|]; cbn [bind obind fst]; [|reflexivity].
  rewrite IH. destruct (forward_layers ls y) as [[z cs]|]; reflexivity.
Qed.
End Off.
(** If the layers behave as in evaluation and the mixing layer does not drop, so does the network. *)
Lemma train_upper_plain {V} coins p training fuel (E : einet V) x :
  (forall x, train_layers coins p training fuel E 0 (e_layers E) x = Some (bind (forward_layers (e_layers E) x) (fun yc => Ok (fst yc)))) ->
  ((e_R E <= 1)%nat \/ (if Rlt_dec 0 p then training else false) = false) ->
  train_upper coins p training fuel E x = Some (bind (forward_upper E x) (fun yc => Ok (fst yc))).
Proof.
  intros Hl Hm. unfold train_upper, forward_upper.
  destruct (match e_perm E with None => _ | Some _ => _ end) as [x1|]; cbn [obind bind]; [|reflexivity].
  rewrite Hl. destruct (forward_layers (e_layers E) x1) as [[z cs]|]; cbn [obind bind fst]; [|reflexivity].
  destruct (size4 z) as [[[[b f] c] r]|]; cbn [obind bind]; [|reflexivity].
  destruct (assert (f =? 1)%nat); cbn [obind bind]; [|reflexivity].
  destruct (assert (c =? e_K E)%nat); cbn [obind bind]; [|reflexivity].
  destruct (Nat.ltb_spec 1 (e_R E)) as [HR|HR].
  - destruct Hm as [Hm|Hm]; [lia|]. destruct (attr (e_mixing E)) as [m|]; cbn [obind bind]; [|reflexivity].
    unfold mixing_train, with_dropout. rewrite Hm. destruct (mixing_forward m None z) as [[y ca]|]; cbn [obind bind fst]; [|reflexivity].
    destruct (assert _); reflexivity.
  - cbn [obind bind]. destruct (assert _); reflexivity.
Qed.
Lemma forward_train_plain {V} coins p training fuel (E : einet V) x ms :
  (forall x, train_layers coins p training fuel E 0 (e_layers E) x = Some (bind (forward_layers (e_layers E) x) (fun yc => Ok (fst yc)))) ->
  ((e_R E <= 1)%nat \/ (if Rlt_dec 0 p then training else false) = false) ->
  forward_train coins p training fuel E x ms = Some (forward E x ms).
Proof.
  intros Hl Hm. unfold forward_train, forward, forward_full.
  destruct (prepare E x); cbn [obind bind]; [|reflexivity]. destruct (leaf_forward _ _ _); cbn [obind bind]; [|reflexivity].
  destruct (merge_channels E _) as [y|]; cbn [obind bind]; [|reflexivity]. rewrite (train_upper_plain _ _ _ _ _ _ Hl Hm).
  destruct (forward_upper E y) as [[? ?]|]; reflexivity.
Qed.
