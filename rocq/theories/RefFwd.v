(** The forward passes of the layers compute the circuit layers of [Circuit.v]. *)
From Coq Require Import List Arith Lia Bool Reals Lra.
Import ListNotations.
From Verif Require Import Base RSum Num Tensor Layers Circuit.
Local Open Scope R_scope.
Local Arguments Nat.div : simpl never.
Local Arguments Nat.modulo : simpl never.
Local Arguments Nat.sub : simpl never.
Local Arguments Nat.mul : simpl never.
Local Arguments Nat.add : simpl never.
Local Arguments Nat.min : simpl never.
Local Arguments clamp : simpl never.
Local Arguments bdim : simpl never.

(** [trep t N D S Rn v]: row [n] of [t] holds the logarithms of the positive values [v n]. *)
Definition trep (t : tensor num) (N D S Rn : nat) (v : nat -> vals) : Prop :=
  shape t = [N; D; S; Rn] /\
  forall n d s r, (n < N)%nat -> (d < D)%nat -> (s < S)%nat -> (r < Rn)%nat ->
    0 < v n d s r /\ get t [n; d; s; r] = Fin (ln (v n d s r)).

Lemma trep_ext t N D S Rn v v' : trep t N D S Rn v -> (forall n, (n < N)%nat -> vagree D S Rn (v n) (v' n)) ->
  trep t N D S Rn v'.
Proof.
  intros [Hs H] E. split; auto. intros n d s r Hn Hd Hs' Hr. rewrite <- (E n); auto.
Qed.
Lemma trep_pos t N D S Rn v n : trep t N D S Rn v -> (n < N)%nat -> vpos D S Rn (v n).
Proof. intros [_ H] Hn d s r Hd Hs Hr. apply H; auto. Qed.

(** Broadcasting of two tensors of one shape. *)
Lemma bshape_rev_refl s : bshape_rev s s = Some s.
Proof. induction s; simpl; auto. rewrite bdim_refl, IHs. auto. Qed.
Lemma bidx_inb s : forall idx, inb s idx -> bidx s idx = idx.
Proof.
  induction s as [|d s IH]; intros [|i idx]; simpl; try tauto. intros [Hi H]. rewrite clamp_lt by auto. rewrite IH; auto.
Qed.
Lemma bproj_inb s idx : inb s idx -> bproj s idx = idx.
Proof.
  intros H. unfold bproj. rewrite (inb_length _ _ H), Nat.sub_diag. apply bidx_inb; auto.
Qed.
Lemma bop_same {A B C} (f : A -> B -> C) a b : shape a = shape b ->
  exists t, bop f a b = Ok t /\ shape t = shape a /\
    forall idx, inb (shape a) idx -> get t idx = f (get a idx) (get b idx).
Proof.
  intros E. unfold bop, bshape. rewrite <- E, bshape_rev_refl. simpl. eexists. split; [reflexivity|].
  simpl. rewrite rev_involutive. split; auto. intros idx H. rewrite bproj_inb by auto. reflexivity.
Qed.

Ltac bcast :=
  unfold badd, bsub, bmul, bop, bshape; cbn [shape rev app bshape_rev option_map];
  rewrite ?bdim_refl, ?bdim_1_l, ?bdim_1_r; cbn [option_map rev app].
Ltac clamps := rewrite ?clamp_1;
  repeat match goal with H : (?i < ?d)%nat |- context [clamp ?d ?i] => rewrite (clamp_lt d i H) end.

(** Log weights. *)
Lemma ndiv_fin x T : T <> 0 -> ndiv (Fin x) (Fin T) = Fin (x / T).
Proof. intros. simpl. destruct (Req_EM_T T 0); [tauto|auto]. Qed.

Lemma ltlw_shape lg d T : shape (logits_to_log_weights lg d T) = shape lg.
Proof. reflexivity. Qed.
Lemma set_nth_nth {A} d (idx : list A) dflt : (d < length idx)%nat -> set_nth d (nth d idx dflt) idx = idx.
Proof. revert d; induction idx; intros [|d]; simpl; intros; try lia; auto. f_equal. apply IHidx; lia. Qed.
Lemma ltlw_get lg d T idx (f : nat -> R) : T <> 0 -> (d < length idx)%nat -> (nth d idx 0 < size lg d)%nat ->
  (forall k, (k < size lg d)%nat -> get lg (set_nth d k idx) = Fin (f k)) ->
  get (logits_to_log_weights lg d T) idx = Fin (ln (rsoftmax (size lg d) (fun k => f k / T) (nth d idx 0%nat))).
Proof.
  intros HT Hd Hn H. unfold logits_to_log_weights, tlog_softmax, tmap. cbn [get shape size].
  replace (size (mkT (shape lg) (fun i => ndiv (get lg i) (Fin T))) d) with (size lg d) by reflexivity.
  rewrite (nlogsumexp_fin _ _ (fun k => f k / T)); [|lia|].
  2:{ intros k Hk. rewrite H by auto. apply ndiv_fin; auto. }
  pose proof (H _ Hn) as H0. rewrite set_nth_nth in H0 by auto. rewrite H0, ndiv_fin by auto. unfold nsub. simpl.
  f_equal. rewrite <- exp_log_softmax by lia. rewrite ln_exp. unfold Rminus. reflexivity.
Qed.

(** Finite logits of the right shape. *)
Definition lfin (lg : tensor num) (s : list nat) : Prop :=
  shape lg = s /\ forall idx, inb s idx -> isfin (get lg idx) = true.
Lemma lfin_get lg s idx : lfin lg s -> inb s idx -> get lg idx = Fin (toR (get lg idx)).
Proof. intros [_ H] Hi. apply isfin_Fin. auto. Qed.

Definition wsoft (K : nat) (T : R) (f : nat -> num) (k : nat) : R := rsoftmax K (fun k => toR (f k) / T) k.
Lemma wsoft_pos K T f k : (0 < K)%nat -> 0 < wsoft K T f k.
Proof. apply rsoftmax_pos. Qed.
Lemma wsoft_sum K T f : (0 < K)%nat -> rsum K (wsoft K T f) = 1.
Proof. apply rsoftmax_sum. Qed.

(** Logarithms of products and weighted sums. *)
Lemma ln_mul a b : 0 < a -> 0 < b -> ln a + ln b = ln (a * b).
Proof. intros. rewrite ln_mult; auto. Qed.
Lemma nlogsumexp_ln n f (g : nat -> R) : (0 < n)%nat ->
  (forall i, (i < n)%nat -> 0 < g i /\ f i = Fin (ln (g i))) -> nlogsumexp n f = Fin (ln (rsum n g)).
Proof.
  intros Hn H. rewrite (nlogsumexp_fin n f (fun i => ln (g i))); auto; [|intros; apply H; auto].
  f_equal. f_equal. apply rsum_ext. intros i Hi. apply exp_ln. apply H; auto.
Qed.

(** * The circuit layers of the tensor layers at temperature [T] *)

Definition linsum_w (L : slay) (T : R) (d o r k : nat) : R :=
  wsoft (sin L) T (fun k => get (logits L) [d; k; o; r]) k.
Definition pair_kids (n d : nat) : list nat := if (2 * d + 1 <? n)%nat then [2 * d; 2 * d + 1]%nat else [2 * d]%nat.
Definition linsum_u (L : slay) (T : R) : ulayer :=
  mkU (nf L) (linsum_features_out L) (sin L) (sout L) (sin L) (linsum_w L T)
      (pair_kids (nf L)) (fun _ _ k _ => k) (fun d => d / 2)%nat.
Definition sum_u (L : slay) (T : R) : ulayer :=
  mkU (nf L) (nf L) (sin L) (sout L) (sin L) (linsum_w L T) (fun d => [d]) (fun _ _ k _ => k) (fun d => d).
Definition pairprod_u (D S : nat) : ulayer :=
  mkU D ((D + 1) / 2) S S 1 (fun _ _ _ _ => 1) (pair_kids D) (fun _ o _ _ => o) (fun d => d / 2)%nat.
Definition einsum_w (L : slay) (T : R) (d o r k : nat) : R :=
  wsoft (sin L * sin L) T (fun k => get (logits L) [d; o; r; k / sin L; k mod sin L]%nat) k.
Definition einsum_u (L : slay) (T : R) : ulayer :=
  mkU (nf L) (einsum_features_out L) (sin L) (sout L) (sin L * sin L) (einsum_w L T)
      (fun d => [2 * d; 2 * d + 1]%nat)
      (fun d _ k d' => if (d' =? 2 * d)%nat then (k / sin L)%nat else (k mod sin L)%nat) (fun d => d / 2)%nat.
Definition rootprod_u (D S : nat) : ulayer :=
  mkU D 1 S S 1 (fun _ _ _ _ => 1) (fun _ => seq 0 D) (fun _ o _ _ => o) (fun _ => 0%nat).
Definition mixing_w (L : slay) (T : R) (y r : nat) : R :=
  wsoft (sin L) T (fun k => get (logits L) [0; y; k]%nat) r.

Lemma div2_half n : ((n + n mod 2) / 2 = (n + 1) / 2)%nat.
Proof.
  pose proof (Nat.mod_upper_bound n 2). pose proof (Nat.div_mod n 2).
  destruct (n mod 2) as [|[|]] eqn:E; [| |lia].
  - rewrite Nat.add_0_r. apply Nat.div_unique with (r := 1%nat); try lia.
  - auto.
Qed.
Lemma pair_kids_spec n d d' : (d < (n + 1) / 2)%nat ->
  (In d' (pair_kids n d) <-> (d' < n)%nat /\ (d' / 2 = d)%nat).
Proof.
  intros Hd. unfold pair_kids. pose proof (Nat.div_mod d' 2 ltac:(lia)). pose proof (Nat.mod_upper_bound d' 2 ltac:(lia)).
  pose proof (Nat.div_mod (n + 1) 2 ltac:(lia)). pose proof (Nat.mod_upper_bound (n + 1) 2 ltac:(lia)).
  destruct (Nat.ltb_spec (2 * d + 1) n); simpl; split; intros; lia.
Qed.
Lemma pair_kids_nodup n d : NoDup (pair_kids n d).
Proof.
  unfold pair_kids. destruct (_ <? _)%nat; repeat constructor; simpl; try tauto. lia.
Qed.
Lemma half_lt d n : (d < n)%nat -> (d / 2 < (n + 1) / 2)%nat.
Proof.
  intros. pose proof (Nat.div_mod d 2 ltac:(lia)). pose proof (Nat.mod_upper_bound d 2 ltac:(lia)).
  pose proof (Nat.div_mod (n + 1) 2 ltac:(lia)). pose proof (Nat.mod_upper_bound (n + 1) 2 ltac:(lia)). lia.
Qed.

Lemma linsum_u_wf Rn L T : (0 < sin L)%nat -> uwf Rn (linsum_u L T).
Proof.
  intros Hs. split; simpl; intros; unfold linsum_features_out, linsum_pad in *; rewrite ?div2_half in *.
  - apply pair_kids_nodup.
  - apply pair_kids_spec; auto.
  - apply half_lt; auto.
  - auto.
  - apply wsoft_pos; auto.
  - apply wsoft_sum; auto.
Qed.
Lemma sum_u_wf Rn L T : (0 < sin L)%nat -> uwf Rn (sum_u L T).
Proof.
  intros Hs. split; simpl; intros; auto.
  - repeat constructor; simpl; tauto.
  - split; [intros [<-|[]]; auto|intros [? ->]; auto].
  - apply wsoft_pos; auto.
  - apply wsoft_sum; auto.
Qed.
Lemma pairprod_u_wf Rn D S : uwf Rn (pairprod_u D S).
Proof.
  split; simpl; intros; auto.
  - apply pair_kids_nodup.
  - apply pair_kids_spec; auto.
  - apply half_lt; auto.
  - lra.
  - rewrite rsum_S, rsum_0. lra.
Qed.
Lemma einsum_u_wf Rn L T : (0 < sin L)%nat -> nf L mod 2 = 0%nat -> uwf Rn (einsum_u L T).
Proof.
  intros Hs He. pose proof (Nat.div_mod (nf L) 2 ltac:(lia)) as E. split; simpl; intros; unfold einsum_features_out in *.
  - repeat constructor; simpl; lia.
  - pose proof (Nat.div_mod d' 2 ltac:(lia)). pose proof (Nat.mod_upper_bound d' 2 ltac:(lia)).
    split; intros; lia.
  - apply Nat.div_lt_upper_bound; lia.
  - destruct (_ =? _)%nat; [apply Nat.div_lt_upper_bound; lia|apply Nat.mod_upper_bound; lia].
  - apply wsoft_pos. nia.
  - apply wsoft_sum. nia.
Qed.
Lemma rootprod_u_wf Rn D S : uwf Rn (rootprod_u D S).
Proof.
  split; simpl; intros; auto.
  - apply seq_NoDup.
  - rewrite in_seq0. lia.
  - lra.
  - rewrite rsum_S, rsum_0. lra.
Qed.

(** * Forward passes *)

(** Well-formed layers. *)
Definition linsum_ok (L : slay) : Prop := (0 < sin L)%nat /\ (2 <= nf L)%nat /\ lfin (logits L) (linsum_weight_shape L).
Definition linsum2_ok (L : slay) : Prop := (0 < sin L)%nat /\ (2 <= nf L)%nat /\ lfin (logits L) (linsum2_weight_shape L).
Definition sum_ok (L : slay) : Prop := (0 < sin L)%nat /\ lfin (logits L) (sum_weight_shape L).
Definition einsum_ok (L : slay) : Prop :=
  (0 < sin L)%nat /\ (0 < sout L)%nat /\ (0 < nrep L)%nat /\ (2 <= nf L)%nat /\ (nf L mod 2 = 0)%nat /\
  lfin (logits L) (einsum_weight_shape L).
Definition mixing_ok (L : slay) : Prop :=
  (0 < sin L)%nat /\ nf L = 1%nat /\ lfin (logits L) (mixing_weight_shape L).

Definition lval2 (v : vals) : vals := fun d s r => v (2 * d)%nat s r.
Definition rval2 (n : nat) (v : vals) : vals := fun d s r => if (2 * d + 1 <? n)%nat then v (2 * d + 1)%nat s r else 1.

(** The left and right halves of a feature axis, with padding. *)
Lemma left_rep x N D S Rn v : trep x N D S Rn v -> (2 <= D)%nat ->
  trep (slice_step 1 0 2 x) N ((D + 1) / 2) S Rn (fun n => lval2 (v n)).
Proof.
  destruct x as [sx gx]. intros [Hs H] HD. simpl in Hs, H. subst sx. split.
  - unfold slice_step, size. simpl. rewrite Nat.sub_0_r. reflexivity.
  - intros n d s r Hn Hd Hs Hr. unfold slice_step; simpl. unfold lval2. apply H; auto.
    pose proof (Nat.div_mod (D + 1) 2 ltac:(lia)). pose proof (Nat.mod_upper_bound (D + 1) 2 ltac:(lia)). lia.
Qed.
Lemma right_rep x N D S Rn v : trep x N D S Rn v -> (2 <= D)%nat ->
  exists rt, pad_right (D mod 2) (slice_step 1 1 2 x) = Ok rt /\
  trep rt N ((D + 1) / 2) S Rn (fun n => rval2 D (v n)).
Proof.
  destruct x as [sx gx]. intros [Hs H] HD. simpl in Hs, H. subst sx.
  pose proof (Nat.div_mod D 2 ltac:(lia)) as E1. pose proof (Nat.mod_upper_bound D 2 ltac:(lia)) as E2.
  assert (E3: ((D - 1 + (2 - 1)) / 2 = D / 2)%nat) by (f_equal; lia).
  unfold pad_right. destruct (Nat.ltb_spec 0 (D mod 2)) as [Hp|Hp].
  - assert (Hodd: (D mod 2 = 1)%nat) by lia. rewrite Hodd.
    assert (E4: ((D + 1) / 2 = D / 2 + 1)%nat).
    { replace (D + 1)%nat with ((D / 2 + 1) * 2)%nat by lia. apply Nat.div_mul. lia. }
    unfold cat2, slice_step, take, tmap, size. simpl. rewrite E3. rewrite !Nat.eqb_refl. simpl.
    eexists. split; [reflexivity|]. split.
    + simpl. rewrite E4. f_equal. f_equal. assert (1 <= D / 2)%nat by (apply Nat.div_le_lower_bound; lia). lia.
    + intros n d s r Hn Hd Hs Hr. simpl. unfold rval2.
      destruct (Nat.ltb_spec (2 * d + 1) D).
      * destruct (Nat.ltb_spec d (D / 2)); [|lia]. replace (1 + 2 * d)%nat with (2 * d + 1)%nat by lia. apply H; auto.
      * destruct (Nat.ltb_spec d (D / 2)); [lia|]. split; [lra|]. rewrite ln_1. reflexivity.
  - assert (Hev: (D mod 2 = 0)%nat) by lia.
    assert (E4: ((D + 1) / 2 = D / 2)%nat).
    { symmetry. apply Nat.div_unique with (r := 1%nat); lia. }
    eexists. split; [reflexivity|]. unfold slice_step, size. split.
    + simpl. rewrite E3, E4. reflexivity.
    + intros n d s r Hn Hd Hs Hr. simpl. unfold rval2. rewrite E4 in Hd.
      destruct (Nat.ltb_spec (2 * d + 1) D); [|lia]. replace (1 + 2 * d)%nat with (2 * d + 1)%nat by lia. apply H; auto.
Qed.

Lemma pairprod_val n v d k r : lval2 v d k r * rval2 n v d k r =
  lprod (fun d' => v d' k r) (pair_kids n d).
Proof.
  unfold lval2, rval2, pair_kids. destruct (_ <? _)%nat; simpl; ring.
Qed.

Lemma badd4_rep a b N D S Rn v w : trep a N D S Rn v -> trep b N D S Rn w ->
  exists t, badd a b = Ok t /\ trep t N D S Rn (fun n d s r => v n d s r * w n d s r).
Proof.
  intros [Ha Ga] [Hb Gb]. destruct (bop_same nadd a b) as (t & Ht & Hsh & Hg); [congruence|].
  exists t. split; [exact Ht|]. split; [congruence|]. intros n d s r Hn Hd Hs Hr.
  destruct (Ga n d s r) as [P1 E1]; auto. destruct (Gb n d s r) as [P2 E2]; auto.
  split; [apply Rmult_lt_0_compat; auto|]. rewrite Hg by (rewrite Ha; simpl; auto). rewrite E1, E2. simpl.
  rewrite ln_mul by auto. reflexivity.
Qed.

(** Weighted sum over channels: logsumexp(x.unsqueeze(3) + log_softmax(logits, 1).unsqueeze(0), dim=2). *)
Lemma wsum_rep lg x N D S O Rn v : (0 < S)%nat -> lfin lg [D; S; O; Rn] -> trep x N D S Rn v ->
  exists t, badd (unsqueeze 3 x) (unsqueeze 0 (logits_to_log_weights lg 1 1)) = Ok t /\
  shape (tlogsumexp 2 t) = [N; D; O; Rn] /\
  trep (tlogsumexp 2 t) N D O Rn (fun n d o r =>
    rsum S (fun k => wsoft S 1 (fun k => get lg [d; k; o; r]) k * v n d k r)).
Proof.
  intros HS Hl [Hx Gx]. destruct x as [sx gx]. simpl in Hx, Gx. subst sx.
  pose proof Hl as [Hls _].
  unfold unsqueeze at 1. simpl insert_nth.
  unfold unsqueeze. cbn [shape]. rewrite ltlw_shape, Hls. simpl insert_nth.
  bcast. eexists. split; [reflexivity|].
  assert (Sh: forall g, shape (tlogsumexp 2 (mkT [N; D; S; O; Rn] g)) = [N; D; O; Rn]) by reflexivity.
  split; [apply Sh|]. split; [apply Sh|].
  intros n d o r Hn Hd Ho Hr.
  assert (P: forall k, (k < S)%nat -> 0 < wsoft S 1 (fun k => get lg [d; k; o; r]) k * v n d k r).
  { intros k Hk. apply Rmult_lt_0_compat; [apply wsoft_pos; auto|apply Gx; auto]. }
  split; [apply rsum_pos; auto|].
  unfold tlogsumexp, reduce, size. cbn [get shape nth insert_nth].
  apply nlogsumexp_ln; auto. intros k Hk. split; [apply P; auto|].
  unfold bproj. simpl length. simpl skipn. cbn [bidx]. clamps. cbn [remove_nth].
  rewrite (ltlw_get lg 1 1 [d; k; o; r] (fun k => toR (get lg [d; k; o; r]))).
  - destruct (Gx n d k r) as [Px Ex]; auto. rewrite Ex. simpl. rewrite Rplus_comm, ln_mul; auto.
    + unfold size. rewrite Hls. reflexivity.
    + unfold size. rewrite Hls. apply rsoftmax_pos; auto.
  - lra.
  - simpl; lia.
  - unfold size. rewrite Hls. auto.
  - unfold size. rewrite Hls. simpl. intros k' Hk'. apply lfin_get with (s := [D; S; O; Rn]); auto. simpl; auto.
Qed.

Theorem linsum_forward_rep L x N v : linsum_ok L -> trep x N (nf L) (sin L) (nrep L) v ->
  exists out cl cr, linsum_forward L None x = Ok (out, CLR cl cr) /\
    trep out N (linsum_features_out L) (sout L) (nrep L) (fun n => ueval (linsum_u L 1) (v n)) /\
    trep cl N (linsum_features_out L) (sin L) (nrep L) (fun n => lval2 (v n)) /\
    trep cr N (linsum_features_out L) (sin L) (nrep L) (fun n => rval2 (nf L) (v n)).
Proof.
  intros (Hs & Hn & Hl) Hx. unfold linsum_forward.
  unfold size4. destruct Hx as [Hsx Gx]. rewrite Hsx. cbn [bind].
  assert (Hx: trep x N (nf L) (sin L) (nrep L) v) by (split; auto).
  unfold linsum_features_out, linsum_weight_shape, linsum_features_out, linsum_pad in *. rewrite div2_half in *.
  pose proof (left_rep _ _ _ _ _ _ Hx Hn) as HL.
  destruct (right_rep _ _ _ _ _ _ Hx Hn) as (rt & E & HR). rewrite E. cbn [bind].
  destruct (badd4_rep _ _ _ _ _ _ _ _ HL HR) as (p & Ep & Hp). rewrite Ep. cbn [bind apply_mask].
  destruct (wsum_rep (logits L) p N _ _ (sout L) _ _ Hs Hl Hp) as (t & Et & _ & Ht). rewrite Et. cbn [bind].
  exists (tlogsumexp 2 t), (slice_step 1 0 2 x), rt. split; [reflexivity|]. split; [|split; auto].
  eapply trep_ext; [exact Ht|]. intros n Hn' d o r Hd Ho Hr.
  unfold ueval, uprod. simpl. apply rsum_ext. intros k Hk. unfold linsum_w. f_equal. apply pairprod_val.
Qed.

Theorem sum_forward_rep L x N v : sum_ok L -> trep x N (nf L) (sin L) (nrep L) v ->
  exists out, sum_forward L None x = Ok (out, CIn x) /\
    trep out N (nf L) (sout L) (nrep L) (fun n => ueval (sum_u L 1) (v n)).
Proof.
  intros (Hs & Hl) Hx. unfold sum_forward. cbn [bind apply_mask]. unfold sum_weight_shape in Hl.
  destruct (wsum_rep (logits L) x N _ _ (sout L) _ _ Hs Hl Hx) as (t & Et & Hsh & Ht).
  unfold logits_to_log_weights in *. rewrite Et. cbn [bind]. rewrite Hsh.
  destruct Hx as [Hsx Gx]. unfold unsqueeze, size. cbn [shape]. rewrite Hsx. simpl insert_nth. cbn [nth].
  rewrite eqb_list_refl. simpl. exists (tlogsumexp 2 t). split; [reflexivity|].
  eapply trep_ext; [exact Ht|]. intros n Hn' d o r Hd Ho Hr.
  unfold ueval, uprod. simpl. apply rsum_ext. intros k Hk. unfold linsum_w. f_equal. ring.
Qed.

Theorem linsum2_forward_rep L x N v : linsum2_ok L -> trep x N (nf L) (sin L) (nrep L) v ->
  exists out, linsum2_forward L None x = Ok (out, CIn x) /\
    trep out N (linsum_features_out L) (sout L) (nrep L)
      (fun n => ueval (pairprod_u (nf L) (sout L)) (ueval (sum_u L 1) (v n))).
Proof.
  intros (Hs & Hn & Hl) Hx. unfold linsum2_forward. unfold linsum2_weight_shape in Hl.
  destruct (wsum_rep (logits L) x N _ _ (sout L) _ _ Hs Hl Hx) as (t & Et & Hsh & Ht).
  rewrite Et. cbn [bind]. unfold linsum_features_out, linsum_pad. rewrite div2_half.
  pose proof (left_rep _ _ _ _ _ _ Ht Hn) as HL.
  destruct (right_rep _ _ _ _ _ _ Ht Hn) as (rt & E & HR). rewrite E. cbn [bind].
  destruct (badd4_rep _ _ _ _ _ _ _ _ HL HR) as (p & Ep & Hp). rewrite Ep. cbn [bind apply_mask].
  exists p. split; [reflexivity|]. eapply trep_ext; [exact Hp|]. intros n Hn' d o r Hd Ho Hr.
  unfold ueval at 1, uprod. simpl uK. rewrite rsum_S, rsum_0. simpl uW. simpl ukids. simpl usel.
  rewrite Rplus_0_l, Rmult_1_l. rewrite pairprod_val. apply lprod_ext. intros d' Hd'.
  unfold ueval, uprod. simpl. apply rsum_ext. intros k Hk. unfold linsum_w. f_equal. ring.
Qed.

Theorem rootprod_forward_rep D S x N Rn v : trep x N D S Rn v ->
  exists out, rootprod_forward D x = Ok out /\ trep out N 1 S Rn (fun n => ueval (rootprod_u D S) (v n)).
Proof.
  intros [Hx Gx]. destruct x as [sx gx]. simpl in Hx, Gx. subst sx. unfold rootprod_forward, size. cbn [shape nth].
  rewrite Nat.eqb_refl. simpl. eexists. split; [reflexivity|]. split; [reflexivity|].
  intros n d s r Hn Hd Hs Hr. unfold ueval, uprod. simpl uK. rewrite rsum_S, rsum_0. simpl.
  assert (P: 0 < lprod (fun d' => v n d' s r) (seq 0 D)).
  { apply lprod_pos. intros a Ha. apply in_seq0 in Ha. apply Gx; auto. }
  split; [lra|]. unfold tsum_keep, reduce_keep, size. cbn [get shape nth set_nth].
  rewrite (nsum_fin D _ (fun k => ln (v n k s r))) by (intros; apply Gx; auto).
  f_equal. rewrite Rplus_0_l, Rmult_1_l. rewrite <- (ln_exp (rsum D _)). f_equal.
  unfold rsum. rewrite exp_lsum. apply lprod_ext. intros a Ha. apply in_seq0 in Ha. apply exp_ln. apply Gx; auto.
Qed.

Theorem mixing_forward_rep L x N v : mixing_ok L -> shape x = [N; 1; sout L; sin L]%nat ->
  (forall n y r, (n < N)%nat -> (y < sout L)%nat -> (r < sin L)%nat ->
     0 < v n y r /\ get x [n; 0%nat; y; r] = Fin (ln (v n y r))) ->
  exists out, mixing_forward L None x = Ok (out, CIn x) /\ shape out = [N; 1; sout L]%nat /\
    forall n y, (n < N)%nat -> (y < sout L)%nat ->
      0 < rsum (sin L) (fun r => mixing_w L 1 y r * v n y r) /\
      get out [n; 0%nat; y] = Fin (ln (rsum (sin L) (fun r => mixing_w L 1 y r * v n y r))).
Proof.
  intros (Hs & Hnf & Hl) Hx Gx. destruct x as [sx gx]. simpl in Hx, Gx. subst sx.
  unfold mixing_weight_shape in Hl. rewrite Hnf in Hl. pose proof Hl as [Hls _].
  unfold mixing_forward. cbn [bind apply_mask]. unfold unsqueeze. rewrite ltlw_shape, Hls. simpl insert_nth.
  bcast. cbn [bind]. eexists. split; [reflexivity|]. split; [reflexivity|].
  intros n y Hn Hy.
  assert (P: forall r, (r < sin L)%nat -> 0 < mixing_w L 1 y r * v n y r).
  { intros r Hr. apply Rmult_lt_0_compat; [apply wsoft_pos; auto|apply Gx; auto]. }
  split; [apply rsum_pos; auto|].
  unfold tlogsumexp, reduce, size. cbn [get shape nth insert_nth].
  apply nlogsumexp_ln; auto. intros r Hr. split; [apply P; auto|].
  unfold bproj. simpl length. simpl skipn. cbn [bidx]. clamps. cbn [remove_nth].
  rewrite (ltlw_get (logits L) 2 1 [0%nat; y; r] (fun k => toR (get (logits L) [0%nat; y; k]))).
  - destruct (Gx n y r) as [Px Ex]; auto. rewrite Ex. simpl. rewrite Rplus_comm, ln_mul; auto.
    + unfold size. rewrite Hls. reflexivity.
    + unfold size. rewrite Hls. apply rsoftmax_pos; auto.
  - lra.
  - simpl; lia.
  - unfold size. rewrite Hls. auto.
  - unfold size. rewrite Hls. simpl. intros k' Hk'. apply lfin_get with (s := [1%nat; sout L; sin L]); auto. simpl; auto.
Qed.

(** ** The einsum layer *)
Lemma ravel_merge D O Rn S d o r i j :
  ravel [D; O; Rn; S; S] [d; o; r; i; j] = ravel [D; O; Rn; S * S]%nat [d; o; r; i * S + j]%nat.
Proof. cbn [ravel numel]. ring. Qed.
Lemma flat_lt S i j : (i < S)%nat -> (j < S)%nat -> (i * S + j < S * S)%nat.
Proof. intros. nia. Qed.
Lemma div_mod_flat S k : (0 < S)%nat -> (k / S * S + k mod S = k)%nat.
Proof. intros. pose proof (Nat.div_mod k S). lia. Qed.
Lemma flat_div S i j : (j < S)%nat -> ((i * S + j) / S = i)%nat.
Proof. intros. rewrite Nat.div_add_l by lia. rewrite Nat.div_small by lia. lia. Qed.
Lemma flat_mod S i j : (j < S)%nat -> ((i * S + j) mod S = j)%nat.
Proof. intros. rewrite Nat.add_comm, Nat.mod_add by lia. apply Nat.mod_small; auto. Qed.

Lemma einsum_weights_rep L : einsum_ok L ->
  exists lg w, view_infer [nf L / 2; sout L; nrep L]%nat [] (logits L) = Ok lg /\
    view (einsum_weight_shape L) (tsoftmax 3 lg) = Ok w /\
    shape w = [nf L / 2; sout L; nrep L; sin L; sin L]%nat /\
    forall d o r i j, (d < nf L / 2)%nat -> (o < sout L)%nat -> (r < nrep L)%nat -> (i < sin L)%nat -> (j < sin L)%nat ->
      get w [d; o; r; i; j] = Fin (einsum_w L 1 d o r (i * sin L + j)).
Proof.
  intros (Hs & Ho & Hr & Hn & He & Hl). pose proof Hl as [Hls _]. unfold einsum_weight_shape, einsum_features_out in *.
  assert (HD: (0 < nf L / 2)%nat) by (apply Nat.div_str_pos; lia).
  remember (nf L / 2)%nat as D eqn:ED.
  unfold view_infer. cbn [numel].
  destruct (Nat.eqb_spec (D * (sout L * (nrep L * 1)) * 1) 0) as [Z|_]; [nia|].
  rewrite Hls. cbn [numel app].
  assert (Q: (D * (sout L * (nrep L * (sin L * (sin L * 1)))) / (D * (sout L * (nrep L * 1)) * 1) = sin L * sin L)%nat).
  { symmetry. apply Nat.div_unique with (r := 0%nat); [|ring]. assert (0 < D * (sout L * (nrep L * 1)) * 1)%nat; [|lia].
    repeat apply Nat.mul_pos_pos; lia. }
  rewrite Q. unfold view. rewrite Hls. cbn [numel].
  destruct (Nat.eqb_spec (D * (sout L * (nrep L * (sin L * sin L * 1)))) (D * (sout L * (nrep L * (sin L * (sin L * 1)))))) as [_|Z]; [|exfalso; apply Z; ring].
  eexists. eexists. split; [reflexivity|].
  unfold tsoftmax, size. cbn [shape numel nth].
  destruct (Nat.eqb_spec (D * (sout L * (nrep L * (sin L * (sin L * 1))))) (D * (sout L * (nrep L * (sin L * sin L * 1))))) as [_|Z]; [|exfalso; apply Z; ring].
  split; [reflexivity|]. cbn [shape get]. split; [reflexivity|].
  intros d o r i j Hd Ho' Hr' Hi Hj. rewrite ravel_merge.
  rewrite unravel_ravel by (simpl; repeat split; auto; apply flat_lt; auto).
  assert (G: forall k, (k < sin L * sin L)%nat ->
     get (logits L) (unravel [D; sout L; nrep L; sin L; sin L] (ravel [D; sout L; nrep L; (sin L * sin L)%nat] [d; o; r; k]))
     = Fin (toR (get (logits L) [d; o; r; k / sin L; k mod sin L]%nat))).
  { intros k Hk. assert (K1: (k / sin L < sin L)%nat) by (apply Nat.div_lt_upper_bound; lia).
    assert (K2: (k mod sin L < sin L)%nat) by (apply Nat.mod_upper_bound; lia).
    rewrite <- (div_mod_flat (sin L) k) at 1 by auto. rewrite <- ravel_merge.
    rewrite unravel_ravel by (simpl; repeat split; auto).
    apply lfin_get with (s := [D; sout L; nrep L; sin L; sin L]); auto. simpl; repeat split; auto. }
  cbn [set_nth]. rewrite (nsum_fin _ _ (fun k => exp (toR (get (logits L) [d; o; r; k / sin L; k mod sin L]%nat)))).
  2:{ intros k Hk. rewrite G by auto. reflexivity. }
  rewrite G by (apply flat_lt; auto). simpl nexp. rewrite ndiv_fin.
  2:{ apply Rgt_not_eq. apply rsumexp_pos. nia. }
  f_equal. unfold einsum_w, wsoft, rsoftmax. f_equal; [f_equal; field|]. apply rsum_ext. intros k Hk. f_equal. field.
Qed.

Lemma left_even x N D S Rn v : trep x N D S Rn v -> (D mod 2 = 0)%nat ->
  trep (slice_step 1 0 2 x) N (D / 2) S Rn (fun n => lval2 (v n)).
Proof.
  destruct x as [sx gx]. intros [Hs H] HD. simpl in Hs, H. subst sx.
  pose proof (Nat.div_mod D 2 ltac:(lia)) as E1. split.
  - unfold slice_step, size. simpl. f_equal. f_equal. symmetry. apply Nat.div_unique with (r := 1%nat); lia.
  - intros n d s r Hn Hd Hs Hr. unfold slice_step; simpl. unfold lval2. apply H; auto. lia.
Qed.
Lemma right_even x N D S Rn v : trep x N D S Rn v -> (2 <= D)%nat -> (D mod 2 = 0)%nat ->
  trep (slice_step 1 1 2 x) N (D / 2) S Rn (fun n d s r => v n (2 * d + 1)%nat s r).
Proof.
  destruct x as [sx gx]. intros [Hs H] HD2 HD. simpl in Hs, H. subst sx.
  pose proof (Nat.div_mod D 2 ltac:(lia)) as E1. split.
  - unfold slice_step, size. simpl. f_equal. f_equal. f_equal. lia.
  - intros n d s r Hn Hd Hs Hr. unfold slice_step; simpl. replace (1 + 2 * d)%nat with (2 * d + 1)%nat by lia.
    apply H; auto. lia.
Qed.

(** x - max(x, dim=2, keepdim=True), exponentiated: the values divided by a positive constant. *)
Lemma submax_rep x N D S Rn v : (0 < S)%nat -> trep x N D S Rn v ->
  exists l, bsub x (tmax_keep 2 x) = Ok l /\ shape l = [N; D; S; Rn] /\ shape (tmax_keep 2 x) = [N; D; 1; Rn]%nat /\
  forall n d r, (n < N)%nat -> (d < D)%nat -> (r < Rn)%nat -> exists m, 0 < m /\
    get (tmax_keep 2 x) [n; d; 0%nat; r] = Fin (ln m) /\
    forall s, (s < S)%nat -> get l [n; d; s; r] = Fin (ln (v n d s r / m)).
Proof.
  destruct x as [sx gx]. intros HS [Hs H]. simpl in Hs, H. subst sx.
  assert (Es: shape (tmax_keep 2 (mkT [N; D; S; Rn] gx)) = [N; D; 1; Rn]%nat) by reflexivity.
  unfold bsub, bop. rewrite Es. cbn [shape]. unfold bshape. cbn [rev app bshape_rev option_map].
  rewrite ?bdim_refl, ?bdim_1_l, ?bdim_1_r. cbn [option_map rev app].
  eexists. split; [reflexivity|]. split; [reflexivity|]. split; [reflexivity|].
  intros n d r Hn Hd Hr.
  destruct (nmaxl_fin S (fun k => gx [n; d; k; r]) (fun k => ln (v n d k r))) as (m & Em & (i & Hi & Ei) & _); auto.
  { intros. apply H; auto. }
  exists (v n d i r). split; [apply H; auto|]. split.
  - unfold tmax_keep, reduce_keep, size. cbn [get shape nth set_nth]. rewrite Em, Ei. reflexivity.
  - intros s Hs. cbn [get]. unfold bproj. simpl length. simpl skipn. cbn [bidx]. clamps.
    unfold tmax_keep, reduce_keep, size. cbn [get shape nth set_nth]. rewrite Em, Ei.
    destruct (H n d s r) as [P E]; auto. rewrite E. destruct (H n d i r) as [P' E']; auto.
    unfold nsub. simpl. f_equal. unfold Rdiv. rewrite <- (ln_mul (v n d s r)); auto.
    + rewrite ln_Rinv; auto.
    + apply Rinv_0_lt_compat; auto.
Qed.

Theorem einsum_forward_rep L x N v : einsum_ok L -> trep x N (nf L) (sin L) (nrep L) v ->
  exists out cl cr, einsum_forward L x = Ok (out, CLR cl cr) /\
    trep out N (einsum_features_out L) (sout L) (nrep L) (fun n => ueval (einsum_u L 1) (v n)) /\
    trep cl N (einsum_features_out L) (sin L) (nrep L) (fun n => lval2 (v n)) /\
    trep cr N (einsum_features_out L) (sin L) (nrep L) (fun n d s r => v n (2 * d + 1)%nat s r).
Proof.
  intros Hok Hx. pose proof Hok as (Hs & Ho & Hr & Hn & He & Hl).
  unfold einsum_forward, size4. pose proof Hx as [Hsx _]. rewrite Hsx. cbn [bind].
  pose proof (left_even _ _ _ _ _ _ Hx He) as HL. pose proof (right_even _ _ _ _ _ _ Hx Hn He) as HR.
  destruct (submax_rep _ _ _ _ _ _ Hs HL) as (l0 & El & Sl & Slm & Gl). rewrite El. cbn [bind].
  destruct (submax_rep _ _ _ _ _ _ Hs HR) as (r0 & Er & Sr & Srm & Gr). rewrite Er. cbn [bind].
  destruct (einsum_weights_rep L Hok) as (lg & w & E1 & E2 & Sw & Gw). rewrite E1. cbn [bind]. rewrite E2. cbn [bind].
  unfold einsum_op, tmap. cbn [shape]. rewrite Sl, Sr, Sw. rewrite eqb_list_refl. cbn [bind].
  set (lm := tmax_keep 2 (slice_step 1 0 2 x)) in *. set (rm := tmax_keep 2 (slice_step 1 1 2 x)) in *.
  unfold badd at 1, bop. cbn [shape]. rewrite Slm. unfold bshape. cbn [rev app bshape_rev option_map].
  rewrite ?bdim_refl, ?bdim_1_l, ?bdim_1_r. cbn [option_map rev app bind].
  unfold badd at 1, bop. cbn [shape]. rewrite Srm. unfold bshape. cbn [rev app bshape_rev option_map].
  rewrite ?bdim_refl, ?bdim_1_l, ?bdim_1_r. cbn [option_map rev app bind].
  eexists. eexists. eexists. split; [reflexivity|]. unfold einsum_features_out. split; [|split; auto].
  split; [reflexivity|]. intros n d o r Hn' Hd Ho' Hr'.
  destruct (Gl n d r) as (ml & Pl & Eml & Gl'); auto. destruct (Gr n d r) as (mr & Pr & Emr & Gr'); auto.
  set (W := ueval (einsum_u L 1) (v n) d o r).
  assert (EW: W = rsum (sin L) (fun i => rsum (sin L) (fun j =>
     lval2 (v n) d i r * v n (2 * d + 1)%nat j r * einsum_w L 1 d o r (i * sin L + j)))).
  { unfold W, ueval, uprod. simpl uK. rewrite rsum_mul. apply rsum_ext. intros i Hi. apply rsum_ext. intros j Hj.
    simpl uW. simpl ukids. simpl usel. cbn [lprod]. rewrite Nat.eqb_refl.
    destruct (Nat.eqb_spec (2 * d + 1) (2 * d)) as [Z|_]; [lia|].
    rewrite flat_div, flat_mod by auto. unfold lval2. ring. }
  assert (PW: 0 < W).
  { apply (ueval_pos (nrep L)); auto; [apply einsum_u_wf; auto|]. eapply trep_pos; eauto. }
  split; [exact PW|]. cbn [get]. unfold bproj. cbn [length]. rewrite ?Nat.sub_diag. simpl skipn. cbn [bidx]. clamps.
  rewrite (nsum_fin _ _ (fun i => rsum (sin L) (fun j =>
     lval2 (v n) d i r * v n (2 * d + 1)%nat j r * einsum_w L 1 d o r (i * sin L + j) * / (ml * mr)))).
  2:{ intros i Hi. apply nsum_fin. intros j Hj. cbn [get]. rewrite Gl', Gr', Gw by auto.
      destruct HL as [_ HL']. destruct HR as [_ HR'].
      destruct (HL' n d i r) as [P1 _]; auto. destruct (HR' n d j r) as [P2 _]; auto.
      simpl. f_equal. rewrite !exp_ln; [field; lra| |]; apply Rdiv_lt_0_compat; auto. }
  rewrite (rsum_ext _ _ (fun i => rsum (sin L) (fun j =>
     lval2 (v n) d i r * v n (2 * d + 1)%nat j r * einsum_w L 1 d o r (i * sin L + j)) * / (ml * mr)))
     by (intros; rewrite rsum_scal_r; reflexivity).
  rewrite rsum_scal_r, <- EW.
  assert (Pi: 0 < / (ml * mr)) by (apply Rinv_0_lt_compat, Rmult_lt_0_compat; auto).
  rewrite nlog_pos by (apply Rmult_lt_0_compat; auto).
  rewrite Eml, Emr. simpl. f_equal. rewrite !ln_mul; auto.
  - f_equal. field. lra.
  - repeat apply Rmult_lt_0_compat; auto.
  - apply Rmult_lt_0_compat; auto.
Qed.
