(** Facts about single layers: weights, stabilized sums, routing of sampled indices. *)
From Coq Require Import List Arith Lia Bool Reals Lra.
Import ListNotations.
From Verif Require Import Base RSum Num Tensor Prob Layers Circuit RefFwd RefSample Lse.
Local Open Scope R_scope.
Local Arguments Nat.div : simpl never.
Local Arguments Nat.modulo : simpl never.
Local Arguments Nat.sub : simpl never.
Local Arguments Nat.mul : simpl never.
Local Arguments Nat.add : simpl never.
Local Arguments Nat.min : simpl never.
Local Arguments clamp : simpl never.
Local Arguments bdim : simpl never.

(** * Weights *)
(** The entries of [t] along dimension [d] through the index [idx]. *)
Definition along {A} (t : tensor A) (d : nat) (idx : list nat) (k : nat) : A := get t (set_nth d k idx).

Lemma nth_set_nth {A} d (v : A) l dflt : (d < length l)%nat -> nth d (set_nth d v l) dflt = v.
Proof. revert d; induction l; intros [|d]; simpl; intros; try lia; auto. apply IHl. lia. Qed.
Lemma set_nth_set_nth {A} d (u v : A) l : set_nth d u (set_nth d v l) = set_nth d u l.
Proof. revert d; induction l; intros [|d]; simpl; auto. f_equal. auto. Qed.
Lemma inb_set_nth s : forall idx d k, inb s idx -> (k < nth d s 0)%nat -> inb s (set_nth d k idx).
Proof.
  induction s as [|a s IH]; intros [|i idx] [|d] k; cbn [inb set_nth nth]; try tauto; try lia.
  intros [H1 H2] H. split; auto.
Qed.
Lemma inb_nth s : forall idx d, inb s idx -> (d < length s)%nat -> (nth d idx 0 < nth d s 0)%nat.
Proof.
  induction s as [|a s IH]; intros [|i idx] [|d]; cbn [inb nth length]; try tauto; try lia.
  intros [_ H] Hd. apply IH; auto. lia.
Qed.

Theorem weights_log lg d T idx : all_fin lg -> (d < dim lg)%nat -> T <> 0 -> inb (shape lg) idx ->
  get (logits_to_log_weights lg d T) idx =
  Fin (ln (exp (toR (get lg idx) / T) / rsum (size lg d) (fun k => exp (toR (along lg d idx k) / T)))).
Proof.
  intros Hf Hd HT Hi. pose proof (inb_length _ _ Hi) as Hl. unfold dim in Hd.
  rewrite (ltlw_get lg d T idx (fun k => toR (along lg d idx k))); auto.
  - unfold rsoftmax, along. rewrite set_nth_nth by lia. reflexivity.
  - lia.
  - apply inb_nth; auto.
  - intros k Hk. destruct (Hf (set_nth d k idx)) as (x & Hx); [apply inb_set_nth; auto|].
    unfold along. rewrite Hx. reflexivity.
Qed.
Lemma weight_pos lg d T idx : (d < dim lg)%nat -> inb (shape lg) idx ->
  0 < rsum (size lg d) (fun k => exp (toR (along lg d idx k) / T)).
Proof.
  intros Hd Hi. unfold dim in Hd. pose proof (inb_nth _ _ _ Hi Hd). apply rsum_pos; [unfold size; lia|].
  intros. apply exp_pos.
Qed.
Theorem weights_sum lg d T idx : all_fin lg -> (d < dim lg)%nat -> T <> 0 -> inb (shape lg) idx ->
  rsum (size lg d) (fun k => exp (toR (along (logits_to_log_weights lg d T) d idx k))) = 1.
Proof.
  intros Hf Hd HT Hi. pose proof (weight_pos lg d T idx Hd Hi) as P. pose proof (inb_length _ _ Hi) as Hl. unfold dim in Hd.
  rewrite (rsum_ext _ _ (fun k => exp (toR (along lg d idx k) / T) * / rsum (size lg d) (fun k => exp (toR (along lg d idx k) / T)))).
  - rewrite rsum_scal_r. apply Rinv_r. lra.
  - intros k Hk. unfold along at 1. rewrite weights_log; auto; [|apply inb_set_nth; auto].
    cbn [toR]. rewrite exp_ln.
    + unfold Rdiv. f_equal. f_equal. apply rsum_ext. intros j Hj. unfold along. rewrite set_nth_set_nth. reflexivity.
    + apply Rdiv_lt_0_compat; [apply exp_pos|]. apply weight_pos; auto. apply inb_set_nth; auto.
Qed.
Theorem weights_order lg d T idx j k : all_fin lg -> (d < dim lg)%nat -> 0 < T -> inb (shape lg) idx ->
  (j < size lg d)%nat -> (k < size lg d)%nat ->
  (toR (along (logits_to_log_weights lg d T) d idx j) < toR (along (logits_to_log_weights lg d T) d idx k) <->
   toR (along lg d idx j) < toR (along lg d idx k)).
Proof.
  intros Hf Hd HT Hi Hj Hk. unfold along at 1 2.
  pose proof (weight_pos lg d T idx Hd Hi) as P. pose proof (inb_length _ _ Hi) as Hl.
  assert (G: forall i, (i < size lg d)%nat -> toR (get (logits_to_log_weights lg d T) (set_nth d i idx)) =
     toR (along lg d idx i) / T - ln (rsum (size lg d) (fun k => exp (toR (along lg d idx k) / T)))).
  { intros i Hi'. rewrite weights_log; auto; [|lra|apply inb_set_nth; auto]. cbn [toR].
    replace (rsum (size lg d) (fun k => exp (toR (along lg d (set_nth d i idx) k) / T)))
      with (rsum (size lg d) (fun k => exp (toR (along lg d idx k) / T)))
      by (apply rsum_ext; intros; unfold along; rewrite set_nth_set_nth; reflexivity).
    unfold Rdiv at 1. rewrite <- ln_mul, ln_exp, ln_Rinv; auto; [apply exp_pos|apply Rinv_0_lt_compat; auto]. }
  rewrite !G by auto. assert (IT: 0 < / T) by (apply Rinv_0_lt_compat; auto).
  unfold Rdiv. split; intros H.
  - apply Rmult_lt_reg_r with (/ T); auto. lra.
  - apply Rmult_lt_compat_r with (r := / T) in H; auto. lra.
Qed.
(** Adding a tensor that is constant along the dimension changes nothing. *)
Theorem weights_shift lg d T (c : list nat -> R) idx : all_fin lg -> (d < dim lg)%nat -> T <> 0 -> inb (shape lg) idx ->
  (forall i k, c (set_nth d k i) = c i) ->
  get (logits_to_log_weights (mkT (shape lg) (fun i => nadd (get lg i) (Fin (c i)))) d T) idx =
  get (logits_to_log_weights lg d T) idx.
Proof.
  intros Hf Hd HT Hi Hc.
  assert (Hf': all_fin (mkT (shape lg) (fun i => nadd (get lg i) (Fin (c i))))).
  { intros i Hin. cbn [shape get] in *. destruct (Hf i Hin) as (x & ->). eexists. reflexivity. }
  rewrite !weights_log; auto. f_equal. f_equal. unfold along. cbn [get shape].
  assert (G: forall i, inb (shape lg) i -> toR (nadd (get lg i) (Fin (c i))) = toR (get lg i) + c i).
  { intros i Hin. destruct (Hf i Hin) as (x & ->). reflexivity. }
  rewrite G by auto. change (size (mkT (shape lg) (fun i : list nat => nadd (get lg i) (Fin (c i)))) d) with (size lg d).
  rewrite (rsum_ext _ _ (fun k => exp (toR (get lg (set_nth d k idx)) / T) * exp (c idx / T))).
  - rewrite rsum_scal_r. replace ((toR (get lg idx) + c idx) / T) with (toR (get lg idx) / T + c idx / T) by (field; auto).
    rewrite exp_plus. field. split; [|apply Rgt_not_eq, exp_pos]. apply Rgt_not_eq. apply weight_pos; auto.
  - intros k Hk. rewrite G by (apply inb_set_nth; auto). rewrite Hc, <- exp_plus. f_equal. field. auto.
Qed.

(** * Masked logsumexp *)
Lemma bshape_rev_nil l : bshape_rev l [] = Some l.
Proof. destruct l; reflexivity. Qed.
Lemma insert_remove_last {A} (pre : list A) a b : insert_nth (length pre) b (remove_nth (length pre) (pre ++ [a])) = pre ++ [b].
Proof. induction pre; simpl; auto. f_equal; auto. Qed.
Lemma remove_last {A} (pre : list A) a : remove_nth (length pre) (pre ++ [a]) = pre.
Proof. induction pre; simpl; auto. f_equal; auto. Qed.
Lemma insert_last {A} (pre : list A) a : insert_nth (length pre) a pre = pre ++ [a].
Proof. induction pre; simpl; auto. f_equal; auto. Qed.
Lemma nth_last {A} (pre : list A) a d : nth (length pre) (pre ++ [a]) d = a.
Proof. rewrite app_nth2, Nat.sub_diag by lia. reflexivity. Qed.
Lemma bshape_last pre K K' : bdim K K' = Some K -> bshape (pre ++ [K]) (pre ++ [K']) = Some (pre ++ [K]).
Proof.
  intros H. unfold bshape. rewrite !rev_app_distr. cbn [rev app bshape_rev]. rewrite H, bshape_rev_refl. cbn [option_map rev].
  rewrite rev_involutive. reflexivity.
Qed.
Lemma bshape_vec pre K : bshape (pre ++ [K]) [K] = Some (pre ++ [K]).
Proof.
  unfold bshape. rewrite rev_app_distr. cbn [rev app bshape_rev]. rewrite bdim_refl, bshape_rev_nil. cbn [option_map rev].
  rewrite rev_involutive. reflexivity.
Qed.
Lemma bidx_app s1 : forall s2 i1 i2, length i1 = length s1 -> bidx (s1 ++ s2) (i1 ++ i2) = bidx s1 i1 ++ bidx s2 i2.
Proof. induction s1; intros s2 [|i i1] i2; simpl; try discriminate; auto. intros H. f_equal. apply IHs1. lia. Qed.
Lemma inb_app s1 : forall s2 i1 i2, length i1 = length s1 -> (inb (s1 ++ s2) (i1 ++ i2) <-> inb s1 i1 /\ inb s2 i2).
Proof. induction s1; intros s2 [|i i1] i2; simpl; try discriminate; [tauto|]. intros H. rewrite IHs1 by lia. tauto. Qed.

Theorem logsumexp_last pre K t mask (x : list nat -> nat -> R) (m : nat -> R) : (0 < K)%nat -> shape t = pre ++ [K] ->
  (forall idx k, inb pre idx -> (k < K)%nat -> get t (idx ++ [k]) = Fin (x idx k)) ->
  match mask with
  | None => forall k, m k = 1
  | Some mk => shape mk = [K] /\ forall k, (k < K)%nat -> get mk [k] = Fin (m k)
  end ->
  exists y, logsumexp_masked t mask (length pre) = Ok y /\ shape y = pre /\
    forall idx, inb pre idx -> get y idx = nlog (Fin (rsum K (fun k => m k * exp (x idx k)))).
Proof.
  intros HK Hs Hx Hm. unfold logsumexp_masked.
  assert (Q: exists mk, (match mask with None => Ok (full [size t (length pre)] (Fin 1))
        | Some m => _ <- assert (eqb_list (shape m) [size t (length pre)]) ;; Ok m end) = Ok mk /\
        shape mk = [K] /\ forall k, (k < K)%nat -> get mk [k] = Fin (m k)).
  { unfold size. rewrite Hs, nth_last. destruct mask as [mk|].
    - destruct Hm as [Sm Gm]. exists mk. rewrite Sm, eqb_list_refl. cbn [assert bind]. auto.
    - eexists. split; [reflexivity|]. split; [reflexivity|]. intros. cbn [full get]. rewrite Hm. reflexivity. }
  destruct Q as (mk & -> & Sm & Gm). cbn [bind].
  unfold bsub, bop. unfold unsqueeze, reduce. cbn [shape]. rewrite Hs, insert_remove_last, bshape_last by apply bdim_1_r.
  cbn [bind]. unfold bmul, bop. cbn [tmap shape]. rewrite Sm, bshape_vec. cbn [bind].
  unfold badd, bop, tsum, reduce. cbn [tmap shape]. rewrite ?Hs, !remove_last. unfold bshape. rewrite bshape_rev_refl.
  cbn [option_map]. eexists. split; [reflexivity|]. cbn [shape]. split; [apply rev_involutive|].
  intros idx Hi. cbn [get tmap shape]. rewrite bproj_inb by auto. rewrite <- (inb_length _ _ Hi).
  unfold size. cbn [shape]. rewrite (inb_length _ _ Hi), Hs, nth_last, <- (inb_length _ _ Hi).
  destruct (nmaxl_fin K (fun k => get t (insert_nth (length idx) k idx)) (x idx)) as (mx & Emx & _ & _); auto.
  { intros k Hk. rewrite insert_last. auto. }
  rewrite Emx.
  assert (P: 0 < exp (- mx)) by apply exp_pos.
  rewrite (nsum_fin K _ (fun k => m k * exp (x idx k) * exp (- mx))).
  - rewrite rsum_scal_r. set (W := rsum K _).
    assert (E: ln (exp (- mx)) = - mx) by apply ln_exp.
    unfold nlog.
    destruct (Rlt_dec 0 W) as [Hp|Hp].
    + destruct (Rlt_dec 0 (W * exp (- mx))) as [_|Hn]; [|exfalso; apply Hn, Rmult_lt_0_compat; auto].
      cbn [nadd]. f_equal. rewrite ln_mult by auto. lra.
    + destruct (Rlt_dec 0 (W * exp (- mx))) as [Hn|_]; [exfalso; apply Hp; apply Rmult_lt_reg_r with (exp (- mx)); lra|].
      destruct (Req_EM_T W 0) as [->|Hz].
      * rewrite Rmult_0_l. destruct (Req_EM_T 0 0); [reflexivity|lra].
      * destruct (Req_EM_T (W * exp (- mx)) 0) as [Hw|_]; [|reflexivity].
        apply Rmult_integral in Hw. lra.
  - intros k Hk. rewrite insert_last.
    assert (Hin: inb (pre ++ [K]) (idx ++ [k])) by (apply inb_app; [apply inb_length; auto|simpl; auto]).
    repeat rewrite (bproj_inb (pre ++ [K]) (idx ++ [k]) Hin). cbn [get]. repeat rewrite (bproj_inb (pre ++ [K]) (idx ++ [k]) Hin).
    assert (B1: bproj [K] (idx ++ [k]) = [k]).
    { unfold bproj. rewrite app_length. cbn [length]. replace (length idx + 1 - 1)%nat with (length idx) by lia.
      rewrite skipn_app, skipn_all, Nat.sub_diag. cbn [skipn app bidx]. rewrite clamp_lt by auto. reflexivity. }
    rewrite B1, Gm by auto. cbn [get].
    assert (B2: bproj (pre ++ [1%nat]) (idx ++ [k]) = idx ++ [0%nat]).
    { rewrite bproj_same by (rewrite !app_length, (inb_length _ _ Hi); auto).
      rewrite bidx_app by (apply inb_length; auto). cbn [bidx]. rewrite clamp_1, bidx_inb by auto. reflexivity. }
    rewrite B2, remove_last.
    rewrite Emx, Hx by auto.
    cbn [nsub nneg nadd nexp nmul]. f_equal. unfold Rminus. rewrite exp_plus. ring.
Qed.

(** Along any dimension but the last the mask meets the wrong axis. *)
Theorem logsumexp_first_fails A B t : shape t = [A; B] -> A <> B -> A <> 1%nat -> B <> 1%nat ->
  logsumexp_masked t None 0 = Err RuntimeErr.
Proof.
  intros Hs H1 H2 H3. destruct t as [s g]. cbn [shape] in Hs. subst s. unfold logsumexp_masked. cbn [bind full size shape nth].
  unfold bsub, bop, unsqueeze, reduce. cbn [shape remove_nth insert_nth]. unfold bshape. cbn [rev app bshape_rev].
  rewrite bdim_refl, bdim_1_r. cbn [option_map rev app bind]. unfold bmul, bop, bshape, full. cbn [tmap shape rev app bshape_rev].
  unfold bdim, size. cbn [shape nth]. destruct (Nat.eqb_spec B A); [congruence|]. destruct (Nat.eqb_spec B 1); [tauto|].
  destruct (Nat.eqb_spec A 1); [tauto|]. reflexivity.
Qed.
(** On a square input the entries are weighted by column, not by row. *)
Theorem logsumexp_first_wrong A t mk (x : nat -> nat -> R) (m : nat -> R) : (1 < A)%nat -> shape t = [A; A] ->
  (forall i j, (i < A)%nat -> (j < A)%nat -> get t [i; j] = Fin (x i j)) ->
  shape mk = [A] -> (forall k, (k < A)%nat -> get mk [k] = Fin (m k)) ->
  exists y, logsumexp_masked t (Some mk) 0 = Ok y /\ shape y = [A] /\
    forall j, (j < A)%nat -> 0 < m j -> get y [j] = Fin (ln (m j * rsum A (fun i => exp (x i j)))).
Proof.
  intros HA Hs Hx Sm Gm. destruct t as [s g], mk as [sm gm]. cbn [shape get] in *. subst s sm. unfold logsumexp_masked.
  cbn [shape size nth]. rewrite eqb_list_refl. cbn [assert bind].
  unfold bsub, bop, unsqueeze, reduce. cbn [shape remove_nth insert_nth size nth]. unfold bshape. cbn [rev app bshape_rev].
  rewrite !bdim_refl, bdim_1_r. cbn [option_map rev app bind]. unfold bmul, bop, bshape. cbn [tmap shape rev app bshape_rev].
  rewrite !bdim_refl. cbn [option_map rev app bind]. unfold badd, bop, bshape, tsum, reduce. cbn [tmap shape rev app bshape_rev remove_nth].
  rewrite !bdim_refl. cbn [option_map rev app bind].
  eexists. split; [reflexivity|]. split; [reflexivity|]. intros j Hj Hm.
  gets. cbn [tmap get shape].
  destruct (nmaxl_fin A (fun k => g [k; j]) (fun k => x k j)) as (mx & Emx & _ & _); [lia|auto|].
  rewrite (nsum_fin A _ (fun k => m j * exp (x k j) * exp (- mx))).
  - rewrite Emx.
    rewrite rsum_scal_r, rsum_scal_l.
    assert (P: 0 < rsum A (fun i => exp (x i j))) by (apply rsum_pos; [lia|intros; apply exp_pos]).
    assert (P': 0 < exp (- mx)) by apply exp_pos.
    rewrite nlog_pos by (repeat apply Rmult_lt_0_compat; auto). cbn [nadd]. f_equal.
    rewrite ln_mult, ln_exp; auto; [lra|apply Rmult_lt_0_compat; auto].
  - intros k Hk. rewrite (bproj_same [A; A] [k; j]) by reflexivity. cbn [bidx]. clamps.
    rewrite (bproj_same [A; A]), (bproj_same [1%nat; A]) by reflexivity. cbn [bidx]. clamps.
    unfold bproj. cbn [length]. replace (2 - 1)%nat with 1%nat by lia. cbn [skipn bidx]. clamps.
    rewrite Gm, Hx, Emx by auto. cbn [nsub nneg nadd nexp nmul].
    f_equal. unfold Rminus. rewrite exp_plus. ring.
Qed.

(** * Plain descriptions of layers *)
(** A tensor of log-values, all finite. *)
Definition values (x : tensor num) (N D S Rn : nat) : Prop :=
  shape x = [N; D; S; Rn] /\
  forall n d s r, (n < N)%nat -> (d < D)%nat -> (s < S)%nat -> (r < Rn)%nat -> exists a, get x [n; d; s; r] = Fin a.
Definition vexp (x : tensor num) (n d s r : nat) : R := exp (toR (get x [n; d; s; r])).
Lemma values_rep x N D S Rn : values x N D S Rn -> trep x N D S Rn (vexp x).
Proof.
  intros [Hs H]. split; auto. intros n d s r Hn Hd Hs' Hr. destruct (H n d s r) as (a & Ha); auto.
  unfold vexp. rewrite Ha. cbn [toR]. split; [apply exp_pos|rewrite ln_exp; reflexivity].
Qed.
(** Softmax of the logits over pairs of channels, and over channels. *)
Definition pair_weight (L : slay) (T : R) (d o r i j : nat) : R :=
  exp (toR (get (logits L) [d; o; r; i; j]) / T) /
  rsum (sin L) (fun i => rsum (sin L) (fun j => exp (toR (get (logits L) [d; o; r; i; j]) / T))).
Definition chan_weight (L : slay) (T : R) (d o r k : nat) : R :=
  exp (toR (get (logits L) [d; k; o; r]) / T) / rsum (sin L) (fun k => exp (toR (get (logits L) [d; k; o; r]) / T)).

Lemma einsum_w_pair L T d o r i j : (i < sin L)%nat -> (j < sin L)%nat ->
  einsum_w L T d o r (i * sin L + j) = pair_weight L T d o r i j.
Proof.
  intros Hi Hj. unfold einsum_w, wsoft, rsoftmax, pair_weight. rewrite flat_div, flat_mod by auto. f_equal.
  rewrite rsum_mul. apply rsum_ext. intros a Ha. apply rsum_ext. intros b Hb. rewrite flat_div, flat_mod by auto. reflexivity.
Qed.

Theorem einsum_exact L x N : einsum_ok L -> values x N (nf L) (sin L) (nrep L) ->
  exists y ca, einsum_forward L x = Ok (y, ca) /\ shape y = [N; nf L / 2; sout L; nrep L]%nat /\
  forall n d o r, (n < N)%nat -> (d < nf L / 2)%nat -> (o < sout L)%nat -> (r < nrep L)%nat ->
    get y [n; d; o; r] = Fin (ln (rsum (sin L) (fun i => rsum (sin L) (fun j =>
      pair_weight L 1 d o r i j * vexp x n (2 * d) i r * vexp x n (2 * d + 1) j r)))).
Proof.
  intros Hok Hx. destruct (einsum_forward_rep L x N _ Hok (values_rep _ _ _ _ _ Hx)) as (y & cl & cr & E & [Sy Gy] & _).
  exists y, (CLR cl cr). split; auto. split; [exact Sy|]. intros n d o r Hn Hd Ho Hr.
  destruct (Gy n d o r) as [_ ->]; auto. f_equal. f_equal.
  unfold ueval, uprod. simpl uK. rewrite rsum_mul. apply rsum_ext. intros i Hi. apply rsum_ext. intros j Hj.
  simpl uW. simpl ukids. simpl usel. cbn [lprod]. rewrite Nat.eqb_refl.
  destruct (Nat.eqb_spec (2 * d + 1) (2 * d)) as [Z|_]; [lia|].
  rewrite flat_div, flat_mod, einsum_w_pair by auto. ring.
Qed.

(** Sampling context of a layer: an index per row and output feature, a repetition per row. *)
Definition context_ok (c : sctx) (N D S Rn : nat) : Prop :=
  (0 < N)%nat /\ c_n c = N /\ shape (c_out c) = [N; D] /\ shape (c_rep c) = [N] /\
  (forall n d, (n < N)%nat -> (d < D)%nat -> (get (c_out c) [n; d] < S)%nat) /\
  (forall n, (n < N)%nat -> (get (c_rep c) [n] < Rn)%nat).
Lemma context_good c N D S Rn : context_ok c N D S Rn -> cgood c N D S Rn.
Proof. intros (H0 & H1 & H2 & H3 & H4 & H5). repeat split; auto. Qed.

Theorem einsum_routes {V} L c N : einsum_ok L -> c_tsum c <> 0 -> context_ok c N (nf L / 2) (sout L) (nrep L) ->
  exists lw route, @einsum_sample V L None c = mbind (choose c lw) route /\ shape lw = [N; nf L / 2; sin L * sin L]%nat /\
  (forall n d i j, (n < N)%nat -> (d < nf L / 2)%nat -> (i < sin L)%nat -> (j < sin L)%nat ->
     get lw [n; d; i * sin L + j]%nat =
     Fin (ln (pair_weight L (c_tsum c) d (get (c_out c) [n; d]) (get (c_rep c) [n]) i j))) /\
  forall k, shape k = [N; nf L / 2]%nat ->
    (forall n d, (n < N)%nat -> (d < nf L / 2)%nat -> (get k [n; d] < sin L * sin L)%nat) ->
    exists o, route k = Ret (set_out c o) /\ shape o = [N; nf L] /\
    forall n d i j, (n < N)%nat -> (d < nf L / 2)%nat -> (i < sin L)%nat -> (j < sin L)%nat ->
      get k [n; d] = (i * sin L + j)%nat -> get o [n; 2 * d]%nat = i /\ get o [n; 2 * d + 1]%nat = j.
Proof.
  intros Hok HT Hc. pose proof (context_good _ _ _ _ _ Hc) as Hg. pose proof Hok as (HS & _ & _ & HF & He & _).
  assert (HN: (0 < N)%nat) by apply Hc.
  destruct (@einsum_sampler V L N None vone (c_tsum c) Hok HN HT (or_introl (conj eq_refl eq_refl)) c Hg eq_refl) as (lw & g & E & [Sl Gl] & Hgk).
  exists lw, g. split; auto. split; [exact Sl|]. split.
  - intros n d i j Hn Hd Hi Hj. destruct (Gl n d (i * sin L + j)%nat) as [_ ->]; auto; [simpl; apply flat_lt; auto|].
    f_equal. f_equal. destruct Hg as (_ & _ & Ho & _ & Hr).
    assert (Q: upost (einsum_u L (c_tsum c)) (vone n) d (get (c_out c) [n; d]) (get (c_rep c) [n]) (i * sin L + j) = einsum_w L (c_tsum c) d (get (c_out c) [n; d]) (get (c_rep c) [n]) (i * sin L + j)).
    { apply (upost_one (nrep L)); auto. apply einsum_u_wf; auto. }
    rewrite Q. apply einsum_w_pair; auto.
  - intros k Sk Gk. destruct (Hgk k Sk Gk) as (o & Eo & So & Go). exists o. split; auto. split; [exact So|].
    intros n d i j Hn Hd Hi Hj Ek.
    pose proof (Nat.div_mod (nf L) 2 ltac:(lia)) as ED. cbn [einsum_u uDin upar usel] in Go.
    assert (D1: (2 * d / 2 = d)%nat) by (symmetry; apply Nat.div_unique with (r := 0%nat); lia).
    assert (D2: ((2 * d + 1) / 2 = d)%nat) by (symmetry; apply Nat.div_unique with (r := 1%nat); lia).
    rewrite !Go by (auto; lia). rewrite D1, D2, Nat.eqb_refl, Ek.
    destruct (Nat.eqb_spec (2 * d + 1) (2 * d)) as [Z|_]; [lia|]. rewrite flat_div, flat_mod by auto. auto.
Qed.

(** * Odd feature counts *)
Theorem linsum_padding L x N : linsum_ok L -> values x N (nf L) (sin L) (nrep L) ->
  exists y ca, linsum_forward L None x = Ok (y, ca) /\ shape y = [N; (nf L + 1) / 2; sout L; nrep L]%nat /\
  forall n d o r, (n < N)%nat -> (d < (nf L + 1) / 2)%nat -> (o < sout L)%nat -> (r < nrep L)%nat ->
    get y [n; d; o; r] = Fin (ln (rsum (sin L) (fun k => chan_weight L 1 d o r k * vexp x n (2 * d) k r *
      if (2 * d + 1 <? nf L)%nat then vexp x n (2 * d + 1) k r else 1))).
Proof.
  intros Hok Hx. destruct (linsum_forward_rep L x N _ Hok (values_rep _ _ _ _ _ Hx)) as (y & cl & cr & E & [Sy Gy] & _).
  unfold linsum_features_out, linsum_pad in *. rewrite div2_half in *.
  exists y, (CLR cl cr). split; auto. split; [exact Sy|]. intros n d o r Hn Hd Ho Hr.
  destruct (Gy n d o r) as [_ ->]; auto. f_equal. f_equal.
  unfold ueval, uprod. simpl uK. apply rsum_ext. intros k Hk. simpl uW. simpl ukids. simpl usel.
  unfold pair_kids. change (linsum_w L 1 d o r k) with (chan_weight L 1 d o r k).
  destruct (_ <? _)%nat; cbn [lprod]; ring.
Qed.
Theorem linsum2_padding L x N : linsum2_ok L -> values x N (nf L) (sin L) (nrep L) ->
  exists y ca, linsum2_forward L None x = Ok (y, ca) /\ shape y = [N; (nf L + 1) / 2; sout L; nrep L]%nat /\
  forall n d o r, (n < N)%nat -> (d < (nf L + 1) / 2)%nat -> (o < sout L)%nat -> (r < nrep L)%nat ->
    get y [n; d; o; r] = Fin (ln (rsum (sin L) (fun k => chan_weight L 1 (2 * d) o r k * vexp x n (2 * d) k r) *
      if (2 * d + 1 <? nf L)%nat then rsum (sin L) (fun k => chan_weight L 1 (2 * d + 1) o r k * vexp x n (2 * d + 1) k r) else 1)).
Proof.
  intros Hok Hx. destruct (linsum2_forward_rep L x N _ Hok (values_rep _ _ _ _ _ Hx)) as (y & E & [Sy Gy]).
  unfold linsum_features_out, linsum_pad in *. rewrite div2_half in *.
  exists y, (CIn x). split; auto. split; [exact Sy|]. intros n d o r Hn Hd Ho Hr.
  destruct (Gy n d o r) as [_ ->]; auto. f_equal. f_equal.
  unfold ueval, uprod. simpl uK. rewrite rsum_S, rsum_0. simpl uW. simpl ukids. simpl usel.
  assert (Q: forall f, rsum (sin L) (fun k => linsum_w L 1 f o r k * lprod (fun d' => vexp x n d' k r) [f]) =
     rsum (sin L) (fun k => chan_weight L 1 f o r k * vexp x n f k r)).
  { intros f. apply rsum_ext. intros k Hk. cbn [lprod]. change (linsum_w L 1 f o r k) with (chan_weight L 1 f o r k). ring. }
  unfold pair_kids. destruct (_ <? _)%nat; cbn [lprod]; rewrite ?Q; ring.
Qed.
Theorem linsum_routes {V} L c N : linsum_ok L -> c_tsum c <> 0 -> context_ok c N ((nf L + 1) / 2) (sout L) (nrep L) ->
  exists lw route, @linsum_sample V L None c = mbind (choose c lw) route /\ shape lw = [N; (nf L + 1) / 2; sin L]%nat /\
  (forall n d k, (n < N)%nat -> (d < (nf L + 1) / 2)%nat -> (k < sin L)%nat ->
     get lw [n; d; k] = Fin (ln (chan_weight L (c_tsum c) d (get (c_out c) [n; d]) (get (c_rep c) [n]) k))) /\
  forall k, shape k = [N; (nf L + 1) / 2]%nat ->
    (forall n d, (n < N)%nat -> (d < (nf L + 1) / 2)%nat -> (get k [n; d] < sin L)%nat) ->
    exists o, route k = Ret (set_out c o) /\ shape o = [N; nf L] /\
    forall n f, (n < N)%nat -> (f < nf L)%nat -> get o [n; f] = get k [n; f / 2]%nat.
Proof.
  intros Hok HT Hc. pose proof (context_good _ _ _ _ _ Hc) as Hg. pose proof Hok as (HS & HF & _).
  assert (HN: (0 < N)%nat) by apply Hc.
  assert (ED: linsum_features_out L = ((nf L + 1) / 2)%nat) by (unfold linsum_features_out, linsum_pad; apply div2_half).
  rewrite <- ED in *.
  destruct (@linsum_sampler V L N None vone (c_tsum c) Hok HN HT (or_introl (conj eq_refl eq_refl)) c Hg eq_refl) as (lw & g & E & [Sl Gl] & Hgk).
  exists lw, g. split; auto. split; [exact Sl|]. split.
  - intros n d k Hn Hd Hk. destruct (Gl n d k) as [_ ->]; auto.
    f_equal. f_equal. destruct Hg as (_ & _ & Ho & _ & Hr).
    transitivity (uW (linsum_u L (c_tsum c)) d (get (c_out c) [n; d]) (get (c_rep c) [n]) k); [|reflexivity].
    apply (upost_one (nrep L)); auto. apply linsum_u_wf; auto.
  - intros k Sk Gk. destruct (Hgk k Sk Gk) as (o & Eo & So & Go). exists o. split; auto.
Qed.

(** LinsumLayer2 with an odd number of features cuts the padding off twice: the last feature gets no index. *)
Theorem linsum2_odd_sample {V} L c N : linsum2_ok L -> nf L mod 2 = 1%nat -> c_tsum c <> 0 ->
  context_ok c N ((nf L + 1) / 2) (sout L) (nrep L) ->
  exists lw route, @linsum2_sample V L None c = mbind (choose c lw) route /\ shape lw = [N; nf L; sin L] /\
  forall k, shape k = [N; nf L] -> exists o, route k = Ret (set_out c o) /\ shape o = [N; nf L - 1]%nat.
Proof.
  intros (HS & HF & Hl) Hodd HT Hc. pose proof Hc as (HN & Hn & So & Sr & Go & Gr).
  pose proof (context_good _ _ _ _ _ Hc) as Hg.
  assert (ED: linsum_features_out L = ((nf L + 1) / 2)%nat) by (unfold linsum_features_out, linsum_pad; apply div2_half).
  pose proof (Nat.div_mod (nf L + 1) 2 ltac:(lia)) as E1. pose proof (Nat.div_mod (nf L) 2 ltac:(lia)) as E2.
  assert (EM: ((nf L + 1) mod 2 = 0)%nat).
  { pose proof (Nat.mod_upper_bound (nf L + 1) 2 ltac:(lia)). lia. }
  unfold linsum2_sample, sample_with. rewrite ED, (check_context_ok _ _ _ _ _ Hg). cbn [lift mbind].
  unfold linsum2_select, linsum_pad. rewrite Hodd. cbn [Nat.ltb Nat.leb].
  set (p := take 1 _ _). rewrite Hn.
  destruct (select_disor_ok (logits L) N (nf L) (sin L) (sout L) (nrep L) p (c_rep c)) as (g & Eg & Sg & Gg); auto.
  - apply Hl.
  - unfold p, take, repeat_interleave, size. cbn [shape]. rewrite So. cbn [nth set_nth]. f_equal. f_equal. lia.
  - intros n d Hn' Hd. unfold p, take, repeat_interleave. cbn [get nth set_nth]. apply Go; auto.
    apply Nat.div_lt_upper_bound; lia.
  - rewrite Eg. cbn [bind lift mbind]. unfold linsum2_indices. rewrite mbind_assoc.
    eexists. eexists. split; [reflexivity|]. split; [rewrite ltlw_shape; exact Sg|].
    intros k Sk. rewrite Hn. destruct (view_infer_rows N (nf L) k HN Sk) as (t & Et & St & Gt).
    rewrite Et. cbn [lift mbind]. unfold linsum_pad. rewrite Hodd. cbn [Nat.ltb Nat.leb]. eexists. split; [reflexivity|].
    unfold take, size. cbn [shape]. rewrite St. cbn [nth set_nth]. f_equal. f_equal. lia.
Qed.
(** A LinsumLayer with a single input feature has an output without features. *)
Theorem linsum_single L x N : nf L = 1%nat ->
  shape (logits L) = linsum_weight_shape L -> shape x = [N; 1; sin L; nrep L]%nat ->
  exists y ca, linsum_forward L None x = Ok (y, ca) /\ shape y = [N; 0; sout L; nrep L]%nat.
Proof.
  intros H1 Hl Hx. destruct x as [sx gx]. cbn [shape] in Hx. subst sx. unfold linsum_forward, size4. cbn [shape bind].
  unfold linsum_weight_shape, linsum_features_out, linsum_pad in Hl. rewrite H1 in Hl. change ((1 + 1 mod 2) / 2)%nat with 1%nat in Hl.
  unfold pad_right, linsum_pad. rewrite H1. change (1 mod 2)%nat with 1%nat. cbn [Nat.ltb Nat.leb].
  unfold slice_step, size. cbn [shape nth set_nth]. change ((1 - 1 + (2 - 1)) / 2)%nat with 0%nat. change ((1 - 0 + (2 - 1)) / 2)%nat with 1%nat.
  unfold cat2, take, tmap, size. cbn [shape nth set_nth]. rewrite eqb_list_refl. cbn [bind].
  change (0 + Nat.min 1 0)%nat with 0%nat.
  bcast. change (bdim 1 0) with (Some 0%nat). cbn [option_map rev app bind]. cbn [apply_mask bind unsqueeze shape insert_nth].
  bcast. rewrite ltlw_shape, Hl. cbn [insert_nth rev app bshape_rev]. rewrite ?bdim_refl, ?bdim_1_l, ?bdim_1_r. cbn [option_map rev app bind].
  eexists. eexists. split; [reflexivity|]. reflexivity.
Qed.
