(** Convolutional circuits compute circuits in the sense of [Circuit.v]: the position (h, w) of an image of
    width W is the feature h * W + w, channels are channels, there is one repetition. *)
From Coq Require Import List Arith Lia Bool Reals Lra.
Import ListNotations.
From Verif Require Import Base RSum Num Tensor Prob Layers Circuit Net RefFwd RefSample RefLaw Leaf RefLeaf RefLeafS Einet Diff RefDiff RefSpec RefMore RefMulti RefMv ConvPc.
Local Open Scope R_scope.
Local Arguments Nat.div : simpl never.
Local Arguments Nat.modulo : simpl never.
Local Arguments Nat.sub : simpl never.
Local Arguments Nat.mul : simpl never.
Local Arguments Nat.add : simpl never.
Local Arguments Nat.min : simpl never.
Local Arguments clamp : simpl never.
Local Arguments bdim : simpl never.

(** * Positions *)
Lemma flat_div h w W : (w < W)%nat -> ((h * W + w) / W = h)%nat.
Proof. intros H. symmetry. apply Nat.div_unique with (r := w); lia. Qed.
Lemma flat_mod h w W : (w < W)%nat -> ((h * W + w) mod W = w)%nat.
Proof. intros H. symmetry. apply Nat.mod_unique with (q := h); lia. Qed.
Lemma flat_lt h w H W : (h < H)%nat -> (w < W)%nat -> (h * W + w < H * W)%nat.
Proof. intros. nia. Qed.
Lemma flat_split d H W : (d < H * W)%nat -> exists h w, (h < H)%nat /\ (w < W)%nat /\ d = (h * W + w)%nat.
Proof.
  intros Hd. destruct (divmod_lt H W d Hd) as (A & B & C). exists (d / W)%nat, (d mod W)%nat. auto.
Qed.

Definition crep (t : tensor num) (N S H W : nat) (v : nat -> vals) : Prop :=
  shape t = [N; S; H; W] /\
  forall n s h w, (n < N)%nat -> (s < S)%nat -> (h < H)%nat -> (w < W)%nat ->
    0 < v n (h * W + w)%nat s 0%nat /\ get t [n; s; h; w] = Fin (ln (v n (h * W + w)%nat s 0%nat)).

Lemma crep_ext t N S H W v v' : crep t N S H W v ->
  (forall n d s, (n < N)%nat -> (d < H * W)%nat -> (s < S)%nat -> v n d s 0%nat = v' n d s 0%nat) -> crep t N S H W v'.
Proof.
  intros [Hs Hg] E. split; auto. intros n s h w Hn Hs' Hh Hw. rewrite <- E; auto. apply flat_lt; auto.
Qed.
Lemma crep_pos t N S H W v n : crep t N S H W v -> (n < N)%nat -> vpos (H * W) S 1 (v n).
Proof.
  intros [_ Hg] Hn d s r Hd Hs Hr. destruct (flat_split d H W Hd) as (h & w & Hh & Hw & ->).
  replace r with 0%nat by lia. apply Hg; auto.
Qed.

(** * Sum layers *)
Definition csum_w (s : csum) (T : R) (d o r k : nat) : R :=
  wsoft (cs_in s) T (fun k => get (cs_logits s) [o; k; d / cs_w s; d mod cs_w s]%nat) k.
Definition csum_u (s : csum) (T : R) : ulayer :=
  mkU (cs_h s * cs_w s) (cs_h s * cs_w s) (cs_in s) (cs_out s) (cs_in s) (csum_w s T) (fun d => [d]) (fun _ _ k _ => k) (fun d => d).
Definition csum_ok (s : csum) (S H W : nat) : Prop :=
  cs_in s = S /\ cs_h s = H /\ cs_w s = W /\ (0 < S)%nat /\ (0 < cs_out s)%nat /\ lfin (cs_logits s) [cs_out s; S; H; W].

Lemma csum_u_wf s T S H W : csum_ok s S H W -> uwf 1 (csum_u s T).
Proof.
  intros (E & _ & _ & HS & _). split; simpl; intros; auto.
  - repeat constructor; simpl; tauto.
  - split; [intros [<-|[]]; auto|intros [? ->]; auto].
  - apply wsoft_pos; lia.
  - apply wsoft_sum; lia.
Qed.

Lemma log_softmax_get lg d idx (f : nat -> R) : (d < length idx)%nat -> (nth d idx 0 < size lg d)%nat ->
  (forall k, (k < size lg d)%nat -> get lg (set_nth d k idx) = Fin (f k)) ->
  get (tlog_softmax d lg) idx = Fin (ln (rsoftmax (size lg d) f (nth d idx 0%nat))).
Proof.
  intros Hd Hn Hf. unfold tlog_softmax. cbn [get].
  rewrite (nlogsumexp_fin _ _ f); [|lia|auto].
  pose proof (Hf _ Hn) as H0. rewrite set_nth_nth in H0 by auto. rewrite H0. unfold nsub. simpl.
  f_equal. rewrite <- exp_log_softmax by lia. rewrite ln_exp. unfold Rminus. reflexivity.
Qed.
Lemma rsoftmax_ext K f g k : (forall j, (j < K)%nat -> f j = g j) -> (k < K)%nat -> rsoftmax K f k = rsoftmax K g k.
Proof.
  intros E Hk. unfold rsoftmax. rewrite E by auto. f_equal. apply rsum_ext. intros j Hj. rewrite E; auto.
Qed.

Lemma csum_forward_ok s N S H W x v : csum_ok s S H W -> crep x N S H W v ->
  exists y, csum_forward s x = Ok y /\ crep y N (cs_out s) H W (fun n => ueval (csum_u s 1) (v n)).
Proof.
  intros (E1 & E2 & E3 & HS & HO & Hl) [Sx Gx]. pose proof Hl as [Sl _]. unfold csum_forward.
  set (lw := tlog_softmax 1 (cs_logits s)).
  assert (Slw: shape lw = [cs_out s; S; H; W]) by (unfold lw, tlog_softmax; cbn [shape]; auto).
  assert (Glw: forall o k h w, (o < cs_out s)%nat -> (k < S)%nat -> (h < H)%nat -> (w < W)%nat ->
     get lw [o; k; h; w] = Fin (ln (csum_w s 1 (h * W + w) o 0 k))).
  { intros o k h w Ho Hk Hh Hw. unfold lw. assert (Z: size (cs_logits s) 1 = S) by (unfold size; rewrite Sl; reflexivity).
    rewrite (log_softmax_get _ 1 _ (fun k => toR (get (cs_logits s) [o; k; h; w]))); cbn [nth length]; try rewrite Z; try lia.
    2:{ intros j Hj. cbn [set_nth]. apply (lfin_get _ _ _ Hl). simpl. auto. }
    f_equal. f_equal. unfold csum_w, wsoft. rewrite E1, E3, flat_div, flat_mod by auto.
    apply rsoftmax_ext; auto. intros j Hj. field. }
  clearbody lw. destruct x as [sx gx], lw as [sl gl]. cbn [shape get] in Sx, Gx, Slw, Glw. subst sx sl.
  unfold unsqueeze. cbn [shape insert_nth]. bcast. unfold tlogsumexp, reduce. cbn [bind shape remove_nth].
  eexists. split; [reflexivity|]. split; [reflexivity|].
  intros n o h w Hn Ho Hh Hw. split.
  - apply (ueval_pos 1 (csum_u s 1)).
    + apply csum_u_wf with S H W. repeat split; auto; apply Hl.
    + cbn [uDin uSin csum_u]. rewrite E1, E2, E3. intros d k r Hd Hk Hr. destruct (flat_split d H W Hd) as (h' & w' & Hh' & Hw' & ->).
      replace r with 0%nat by lia. apply Gx; auto.
    + cbn [csum_u uDout]. rewrite E2, E3. apply flat_lt; auto.
    + auto.
    + lia.
  - unfold size. cbn [get shape nth insert_nth].
    rewrite (nlogsumexp_ln S _ (fun k => csum_w s 1 (h * W + w) o 0 k * v n (h * W + w)%nat k 0%nat)); auto.
    + f_equal. f_equal. unfold ueval, csum_u, uprod. cbn [uK uW usel ukids lprod]. rewrite E1. apply rsum_ext. intros k Hk. ring.
    + intros k Hk. destruct (Gx n k h w) as [P G]; auto.
      assert (Q: 0 < csum_w s 1 (h * W + w) o 0 k) by (apply wsoft_pos; lia).
      split; [apply Rmult_lt_0_compat; auto|]. gets. rewrite Glw by auto. rewrite G. cbn [nadd]. f_equal.
      rewrite Rplus_comm. apply ln_mul; auto.
Qed.

(** * Product layers *)
Definition block (W kh kw d : nat) : list nat :=
  map (fun ab => match ab with [a; b] => ((d / (W / kw) * kh + a) * W + (d mod (W / kw) * kw + b))%nat | _ => 0%nat end) (all_idx [kh; kw]).
Definition prod_u (S H W kh kw : nat) : ulayer :=
  mkU (H * W) (H / kh * (W / kw)) S S 1 (fun _ _ _ _ => 1) (block W kh kw) (fun _ o _ _ => o)
      (fun d => (d / W / kh * (W / kw) + d mod W / kw)%nat).
(** [H = H' kh] and [W = W' kw], none of them empty. *)
Definition tiles (kh kw H W H' W' : nat) : Prop :=
  (0 < kh)%nat /\ (0 < kw)%nat /\ (0 < H')%nat /\ (0 < W')%nat /\ H = (H' * kh)%nat /\ W = (W' * kw)%nat.
Lemma tiles_div kh kw H W H' W' : tiles kh kw H W H' W' -> (H / kh = H' /\ W / kw = W')%nat.
Proof. intros (A & B & _ & _ & -> & ->). rewrite !Nat.div_mul by lia. auto. Qed.

Lemma block_in kh kw H W H' W' i j d' : tiles kh kw H W H' W' -> (i < H')%nat -> (j < W')%nat ->
  In d' (block W kh kw (i * W' + j)) <-> exists a b, (a < kh)%nat /\ (b < kw)%nat /\ d' = ((i * kh + a) * W + (j * kw + b))%nat.
Proof.
  intros Ht Hi Hj. pose proof (tiles_div _ _ _ _ _ _ Ht) as [_ EW]. unfold block. rewrite EW, flat_div, flat_mod by auto.
  rewrite in_map_iff. split.
  - intros (ab & <- & Hin). apply in_all_idx in Hin. inbs. eauto.
  - intros (a & b & Ha & Hb & ->). exists [a; b]. split; auto. apply in_all_idx. simpl. auto.
Qed.
Lemma prod_u_wf S H W kh kw H' W' : tiles kh kw H W H' W' -> uwf 1 (prod_u S H W kh kw).
Proof.
  intros Ht. pose proof (tiles_div _ _ _ _ _ _ Ht) as [EH EW]. pose proof Ht as (A & B & C & D & E1 & E2).
  split; simpl; rewrite ?EH, ?EW; intros.
  - unfold block. apply map_nodup_in; [|apply all_idx_NoDup]. intros ab ab' Hi Hi' E. apply in_all_idx in Hi, Hi'.
    destruct ab as [|x [|x0 [|? ?]]]; cbn [inb] in Hi; try tauto. destruct ab' as [|x1 [|x2 [|? ?]]]; cbn [inb] in Hi'; try tauto.
    destruct Hi as (? & ? & _), Hi' as (? & ? & _). rewrite EW in E. destruct (flat_split d H' W') as (i & j & Hi & Hj & ->); auto. rewrite flat_div, flat_mod in E by auto.
    assert (x = x1 /\ x0 = x2)%nat; [|intuition congruence].
    assert (L: forall y, (y < kw)%nat -> (j * kw + y < W)%nat) by (intros; nia).
    pose proof (f_equal (fun z => z / W)%nat E) as E3. pose proof (f_equal (fun z => z mod W)%nat E) as E4. cbn beta in E3, E4.
    rewrite !flat_div in E3 by auto. rewrite !flat_mod in E4 by auto. lia.
  - destruct (flat_split d H' W') as (i & j & Hi & Hj & ->); auto. rewrite (block_in kh kw H W H' W') by auto. split.
    + intros (a & b & Ha & Hb & ->). assert (L: (j * kw + b < W)%nat) by nia.
      split; [apply flat_lt; nia|]. rewrite flat_div, flat_mod by auto. rewrite !flat_div by auto. reflexivity.
    + intros [Hd' E]. destruct (flat_split d' H W Hd') as (h & w & Hh & Hw & ->). rewrite flat_div, flat_mod in E by auto.
      assert (L: (w / kw < W')%nat) by (apply Nat.div_lt_upper_bound; lia).
      pose proof (f_equal (fun z => z / W')%nat E) as E3. pose proof (f_equal (fun z => z mod W')%nat E) as E4. cbn beta in E3, E4.
      rewrite !flat_div in E3 by auto. rewrite !flat_mod in E4 by auto.
      exists (h mod kh)%nat, (w mod kw)%nat. split; [apply Nat.mod_upper_bound; lia|]. split; [apply Nat.mod_upper_bound; lia|].
      pose proof (Nat.div_mod h kh ltac:(lia)). pose proof (Nat.div_mod w kw ltac:(lia)). nia.
  - destruct (flat_split d' H W) as (h & w & Hh & Hw & ->); auto. rewrite flat_div, flat_mod by auto. apply flat_lt.
    + apply Nat.div_lt_upper_bound; lia.
    + apply Nat.div_lt_upper_bound; lia.
  - auto.
  - lra.
  - unfold rsum. simpl. lra.
Qed.

Lemma prod_forward_ok N S H W kh kw H' W' x v : tiles kh kw H W H' W' -> crep x N S H W v ->
  exists y, prod_forward kh kw x = Ok y /\ crep y N S H' W' (fun n => ueval (prod_u S H W kh kw) (v n)).
Proof.
  intros Ht [Sx Gx]. pose proof (tiles_div _ _ _ _ _ _ Ht) as [EH EW]. pose proof Ht as (A & B & C & D & E1 & E2).
  unfold prod_forward, size4. rewrite Sx. cbn [bind].
  destruct (Nat.eqb_spec kh 0) as [Z|_]; [lia|]. destruct (Nat.eqb_spec kw 0) as [Z|_]; [lia|]. cbn [negb guard bind].
  replace (H mod kh)%nat with 0%nat by (rewrite E1, Nat.mod_mul; lia). replace (W mod kw)%nat with 0%nat by (rewrite E2, Nat.mod_mul; lia).
  cbn [Nat.eqb assert guard bind].
  destruct (Nat.leb_spec kh H); [|nia]. destruct (Nat.leb_spec kw W); [|nia]. cbn [andb guard bind].
  eexists. split; [reflexivity|]. split.
  - unfold conv_ones. cbn [shape]. rewrite E1, E2.
    replace (H' * kh - kh)%nat with ((H' - 1) * kh)%nat by nia. replace (W' * kw - kw)%nat with ((W' - 1) * kw)%nat by nia.
    rewrite !Nat.div_mul by lia. repeat f_equal; lia.
  - intros n s i j Hn Hs Hi Hj. split.
    + apply (ueval_pos 1); [eapply prod_u_wf; eauto| | | |]; cbn [prod_u uDout uSout uDin uSin]; rewrite ?EH, ?EW; auto; [|apply flat_lt; auto].
      eapply crep_pos; [split; eauto|auto].
    + unfold conv_ones. cbn [get].
      assert (GG: forall a b, (a < kh)%nat -> (b < kw)%nat ->
        0 < v n ((i * kh + a) * W + (j * kw + b))%nat s 0%nat /\
        get x [n; s; i * kh + a; j * kw + b]%nat = Fin (ln (v n ((i * kh + a) * W + (j * kw + b))%nat s 0%nat))).
      { intros a b Ha Hb. apply Gx; auto; nia. }
      rewrite (nsum_fin kh _ (fun a => rsum kw (fun b => ln (v n ((i * kh + a) * W + (j * kw + b))%nat s 0%nat)))).
      2:{ intros a Ha. apply nsum_fin. intros b Hb. destruct (GG a b Ha Hb) as [_ ->]. cbn [nmul]. rewrite Rmult_1_r. reflexivity. }
      f_equal. unfold ueval, uprod, prod_u. cbn [uK uW usel ukids]. rewrite rsum_S, rsum_0, Rplus_0_l, Rmult_1_l.
      unfold block. rewrite EW, flat_div, flat_mod by auto. rewrite lprod_map, lprod_idx2.
      rewrite ln_rprod by (intros a Ha; apply rprod_pos; intros b Hb; apply GG; auto).
      apply rsum_ext. intros a Ha. rewrite ln_rprod by (intros b Hb; apply GG; auto). reflexivity.
Qed.

(** * Stacks of layers *)
Inductive clay : clayer -> nat -> nat -> nat -> (R -> list ulayer) -> nat -> nat -> nat -> Prop :=
| clay_sum s S H W : csum_ok s S H W -> clay (CSum s) S H W (fun T => [csum_u s T]) (cs_out s) H W
| clay_prod kh kw S H W H' W' : tiles kh kw H W H' W' -> clay (CProd kh kw) S H W (fun _ => [prod_u S H W kh kw]) S H' W'
| clay_sp s kh kw S H W H' W' : csum_ok s S H W -> tiles kh kw H W H' W' ->
    clay (CSumProd OSumProd s kh kw) S H W (fun T => [csum_u s T; prod_u (cs_out s) H W kh kw]) (cs_out s) H' W'
| clay_ps s kh kw S H W H' W' : tiles kh kw H W H' W' -> csum_ok s S H' W' ->
    clay (CSumProd OProdSum s kh kw) S H W (fun T => [prod_u S H W kh kw; csum_u s T]) (cs_out s) H' W'.
Inductive clays : list clayer -> nat -> nat -> nat -> (R -> list ulayer) -> nat -> nat -> nat -> Prop :=
| clays_nil S H W : clays [] S H W (fun _ => []) S H W
| clays_cons l ls S H W us S1 H1 W1 us' S2 H2 W2 : clay l S H W us S1 H1 W1 -> clays ls S1 H1 W1 us' S2 H2 W2 ->
    clays (l :: ls) S H W (fun T => us T ++ us' T) S2 H2 W2.

Lemma csum_chain s T S H W : csum_ok s S H W -> uchain 1 [csum_u s T] (H * W) S (H * W) (cs_out s).
Proof.
  intros Hs. pose proof Hs as (E1 & E2 & E3 & _). cbn [uchain]. split; [eapply csum_u_wf; eauto|]. cbn. rewrite E1, E2, E3. auto.
Qed.
Lemma prod_chain kh kw S H W H' W' : tiles kh kw H W H' W' -> uchain 1 [prod_u S H W kh kw] (H * W) S (H' * W') S.
Proof.
  intros Ht. pose proof (tiles_div _ _ _ _ _ _ Ht) as [E1 E2]. cbn [uchain]. split; [eapply prod_u_wf; eauto|]. cbn. rewrite E1, E2. auto.
Qed.
Lemma clay_chain l S H W us S' H' W' T : clay l S H W us S' H' W' -> uchain 1 (us T) (H * W) S (H' * W') S'.
Proof.
  intros C. inversion C; subst.
  - apply csum_chain; auto.
  - apply prod_chain; auto.
  - change [csum_u s T; prod_u (cs_out s) H W kh kw] with ([csum_u s T] ++ [prod_u (cs_out s) H W kh kw]).
    apply uchain_app. exists (H * W)%nat, (cs_out s). split; [apply csum_chain|apply prod_chain]; auto.
  - change [prod_u S H W kh kw; csum_u s T] with ([prod_u S H W kh kw] ++ [csum_u s T]).
    apply uchain_app. exists (H' * W')%nat, S. split; [apply prod_chain|apply csum_chain]; auto.
Qed.
Lemma clays_chain ls S H W us S' H' W' T : clays ls S H W us S' H' W' -> uchain 1 (us T) (H * W) S (H' * W') S'.
Proof.
  intros C. induction C; [simpl; auto|]. apply uchain_app. exists (H1 * W1)%nat, S1. split; auto. eapply clay_chain; eauto.
Qed.
Lemma clay_pos l S H W us S' H' W' : clay l S H W us S' H' W' -> (0 < S)%nat -> (0 < H)%nat -> (0 < W)%nat -> (0 < S' /\ 0 < H' /\ 0 < W')%nat.
Proof.
  intros C. inversion C; subst; intros;
    repeat match goal with X : csum_ok _ _ _ _ |- _ => destruct X as (_ & _ & _ & _ & ? & _) | X : tiles _ _ _ _ _ _ |- _ => destruct X as (_ & _ & ? & ? & _ & _) end; auto.
Qed.

(** What the sum layer of a layer sees when the layer gets the values [v], if it has one. *)
Definition seen_by (l : clayer) (ca : option (tensor num)) (N S H W : nat) (v : nat -> vals) : Prop :=
  match l with
  | CSum _ | CSumProd OSumProd _ _ _ => exists x, ca = Some x /\ crep x N S H W v
  | CProd _ _ => True
  | CSumProd OProdSum _ kh kw => exists x, ca = Some x /\ crep x N S (H / kh) (W / kw) (fun n => ueval (prod_u S H W kh kw) (v n))
  | CSumProd OOther _ _ _ => False
  end.
Lemma clay_forward_ok l S H W us S' H' W' N x v : clay l S H W us S' H' W' -> crep x N S H W v ->
  exists ca y, clayer_forward l x = (ca, Ok y) /\ seen_by l ca N S H W v /\ crep y N S' H' W' (fun n => evals (us 1) (v n)).
Proof.
  intros C Hx. destruct C as [s S H W Hs|kh kw S H W H' W' Ht|s kh kw S H W H' W' Hs Ht|s kh kw S H W H' W' Ht Hs]; cbn [clayer_forward seen_by].
  - destruct (csum_forward_ok s N S H W x v) as (y & -> & Hy); auto. exists (Some x), y. split; auto. split; eauto.
  - destruct (prod_forward_ok N S H W kh kw H' W' x v) as (y & -> & Hy); auto. exists None, y. split; auto.
  - destruct (csum_forward_ok s N S H W x v) as (y & -> & Hy); auto. cbn [bind].
    destruct (prod_forward_ok N (cs_out s) H W kh kw H' W' y _ Ht Hy) as (z & -> & Hz). exists (Some x), z. split; auto. split; eauto.
  - destruct (prod_forward_ok N S H W kh kw H' W' x v) as (y & -> & Hy); auto.
    destruct (csum_forward_ok s N S H' W' y _ Hs Hy) as (z & -> & Hz). exists (Some y), z. split; auto. split; [|exact Hz].
    destruct (tiles_div _ _ _ _ _ _ Ht) as [-> ->]. eauto.
Qed.
(** [all_seen]: the caches after a forward pass on the values [v]. *)
Inductive all_seen (N : nat) : list clayer -> nat -> nat -> nat -> (nat -> vals) -> list (option (tensor num)) -> Prop :=
| as_nil S H W v : all_seen N [] S H W v []
| as_cons l ls S H W us S1 H1 W1 v ca cas : clay l S H W us S1 H1 W1 -> seen_by l ca N S H W v ->
    all_seen N ls S1 H1 W1 (fun n => evals (us 1) (v n)) cas -> all_seen N (l :: ls) S H W v (ca :: cas).
Lemma clays_forward_ok ls S H W us S' H' W' N : clays ls S H W us S' H' W' -> forall x v, crep x N S H W v ->
  exists cas y, clayers_forward ls x = (cas, Ok y) /\ all_seen N ls S H W v cas /\ crep y N S' H' W' (fun n => evals (us 1) (v n)).
Proof.
  intros C. induction C; intros x v Hx.
  - exists [], x. split; auto. split; [constructor|]. exact Hx.
  - destruct (clay_forward_ok _ _ _ _ _ _ _ _ N x v H0 Hx) as (ca & y & E & Hs & Hy). cbn [clayers_forward]. rewrite E.
    destruct (IHC y _ Hy) as (cas & z & -> & Ha & Hz). exists (ca :: cas), z. split; auto. split; [econstructor; eauto|].
    eapply crep_ext; [exact Hz|]. intros n d s Hn Hd Hs'. cbn beta. rewrite evals_app. reflexivity.
Qed.

(** * Sampling *)
(** [o] holds for every row and position the one-hot encoding of the index [i]. *)
Definition hotat (o : tensor num) (N S H W : nat) (i : nat -> nat -> nat) : Prop :=
  shape o = [N; S; H; W] /\ (forall n d, (n < N)%nat -> (d < H * W)%nat -> (i n d < S)%nat) /\
  forall n s h w, (n < N)%nat -> (s < S)%nat -> (h < H)%nat -> (w < W)%nat -> get o [n; s; h; w] = hot s (i n (h * W + w)%nat).
(** Product over rows and positions of the value of [h] at the encoded index. *)
Definition cprod (N S H W : nat) (o : tensor num) (h : nat -> vals) : R :=
  rprod N (fun n => rprod (H * W) (fun d => rsum S (fun s => toR (get o [n; s; d / W; d mod W]%nat) * h n d s 0%nat))).
Lemma cprod_hot N S H W o i h : hotat o N S H W i ->
  cprod N S H W o h = rprod N (fun n => rprod (H * W) (fun d => h n d (i n d) 0%nat)).
Proof.
  intros (So & Hi & Ho). unfold cprod. apply rprod2_ext. intros n d Hn Hd. pose proof (Hi n d Hn Hd) as Hin.
  destruct (flat_split d H W Hd) as (y & x & Hy & Hx & ->). rewrite flat_div, flat_mod by auto.
  rewrite (rsum_single S (i n (y * W + x)%nat)); auto.
  - rewrite Ho by auto. unfold hot. rewrite Nat.eqb_refl. cbn [toR]. ring.
  - intros k Hk Hne. rewrite Ho by auto. unfold hot. destruct (Nat.eqb_spec k (i n (y * W + x)%nat)); [congruence|]. cbn [toR]. ring.
Qed.

(** Log weights per row, channel and position. *)
Definition cw (lw : tensor num) (N S H W : nat) (p : nat -> nat -> nat -> R) : Prop :=
  shape lw = [N; S; H; W] /\ forall n s h w, (n < N)%nat -> (s < S)%nat -> (h < H)%nat -> (w < W)%nat ->
    0 < p n (h * W + w)%nat s /\ get lw [n; s; h; w] = Fin (ln (p n (h * W + w)%nat s)).

Lemma csum_select_ok s S H W T p N i : csum_ok s S H W -> T <> 0 -> hotat p N (cs_out s) H W i ->
  exists lw, csum_select s T p = Ok lw /\ cw lw N S H W (fun n d k => csum_w s T d (i n d) 0 k).
Proof.
  intros (E1 & E2 & E3 & HS & HO & Hl) HT (Sp & Hi & Hp). pose proof Hl as [Sl Fl]. unfold csum_select.
  destruct p as [sp gp]. cbn [shape get] in Sp, Hp. subst sp.
  destruct (cs_logits s) as [sl gl] eqn:El. cbn [shape get] in Sl, Fl. subst sl.
  unfold unsqueeze. cbn [shape insert_nth]. ioh. eexists. split; [reflexivity|]. split; [reflexivity|].
  intros n k h w Hn Hk Hh Hw. assert (Hd: (h * W + w < H * W)%nat) by (apply flat_lt; auto). pose proof (Hi n _ Hn Hd) as Hin.
  split; [apply wsoft_pos; lia|].
  match goal with |- get (logits_to_log_weights ?lg 1 T) _ = _ =>
    rewrite (ltlw_get lg 1 T _ (fun k => toR (gl [i n (h * W + w)%nat; k; h; w]))); [|exact HT|cbn; lia| |] end.
  - cbn [nth size shape]. f_equal. f_equal. unfold csum_w, wsoft. rewrite E1, E3, flat_div, flat_mod by auto. rewrite El. reflexivity.
  - cbn [nth size shape]. auto.
  - unfold size. cbn [nth shape set_nth]. intros j Hj. cbn [get shape nth insert_nth].
    rewrite (nsum_ext _ _ (fun o => nmul (gl [o; j; h; w]) (hot o (i n (h * W + w)%nat)))).
    + rewrite nsum_hot; auto.
      * apply isfin_Fin. isf Fl.
      * intros o Ho. isf Fl.
    + intros o Ho. gets. rewrite Hp by auto. reflexivity.
Qed.

(** The cached input, or none: then all values are one. *)
Definition cache_ok (ca : option (tensor num)) (N S H W : nat) (v : nat -> vals) : Prop :=
  match ca with
  | None => forall n d s, (n < N)%nat -> (d < H * W)%nat -> (s < S)%nat -> v n d s 0%nat = 1
  | Some x => crep x N S H W v
  end.
Lemma cache_pos ca N S H W v n : cache_ok ca N S H W v -> (n < N)%nat -> vpos (H * W) S 1 (v n).
Proof.
  destruct ca; cbn [cache_ok]; intros Hc Hn; [eapply crep_pos; eauto|]. intros d s r Hd Hs Hr. replace r with 0%nat by lia. rewrite Hc by auto. lra.
Qed.
Lemma csum_weights_ok s S H W T p N i ca v : csum_ok s S H W -> T <> 0 -> hotat p N (cs_out s) H W i -> cache_ok ca N S H W v ->
  exists lw lw', csum_select s T p = Ok lw /\ match ca with None => Ok lw | Some x => csum_condition x lw end = Ok lw' /\
    cw lw' N S H W (fun n d k => upost (csum_u s T) (v n) d (i n d) 0 k).
Proof.
  intros Hs HT Hp Hc. destruct (csum_select_ok s S H W T p N i Hs HT Hp) as (lw & -> & Hlw). exists lw.
  pose proof Hs as (E1 & E2 & E3 & HS & HO & Hl). pose proof Hp as (_ & Hi & _). pose proof Hlw as [Slw Glw].
  assert (EV: forall n d o, ueval (csum_u s T) (v n) d o 0%nat = rsum S (fun k => csum_w s T d o 0 k * v n d k 0%nat)).
  { intros n d o. unfold ueval, uprod, csum_u. cbn [uK uW usel ukids lprod]. rewrite E1. apply rsum_ext. intros; ring. }
  assert (EP: forall n d o k, upost (csum_u s T) (v n) d o 0 k = csum_w s T d o 0 k * v n d k 0%nat / rsum S (fun k => csum_w s T d o 0 k * v n d k 0%nat)).
  { intros n d o k. unfold upost. rewrite EV. unfold uprod, csum_u. cbn [uW usel ukids lprod]. rewrite Rmult_1_r. reflexivity. }
  destruct ca as [x|]; cbn [cache_ok] in Hc.
  - unfold csum_condition, badd. destruct Hc as [Sx Gx].
    destruct (bop_same nadd lw x) as (t & Et & St & Gt); [congruence|]. rewrite Et. cbn [bind].
    rewrite Slw in St, Gt. destruct t as [st gt]. cbn [shape] in St. subst st.
    unfold tlogsumexp_keep, reduce_keep, size. cbn [shape set_nth nth]. bcast.
    eexists. split; [reflexivity|]. split; [reflexivity|]. split; [reflexivity|].
    intros n k h w Hn Hk Hh Hw. set (d := (h * W + w)%nat). assert (Hd: (d < H * W)%nat) by (apply flat_lt; auto).
    rewrite EP. set (q := fun k => csum_w s T d (i n d) 0 k * v n d k 0%nat).
    assert (Q: forall k, (k < S)%nat -> 0 < q k /\ gt [n; k; h; w] = Fin (ln (q k))).
    { intros j Hj. destruct (Glw n j h w) as [P1 G1]; auto. destruct (Gx n j h w) as [P2 G2]; auto. fold d in P1, G1, P2, G2.
      split; [apply Rmult_lt_0_compat; auto|]. change (gt [n; j; h; w]) with (get (mkT [N; S; H; W] gt) [n; j; h; w]). rewrite Gt by (simpl; auto).
      rewrite G1, G2. cbn [nadd]. rewrite ln_mul by auto. reflexivity. }
    change (csum_w s T d (i n d) 0 k * v n d k 0%nat) with (q k).
    assert (PS: 0 < rsum S q) by (apply rsum_pos; auto; intros; apply Q; auto).
    split; [apply Rdiv_lt_0_compat; [apply Q; auto|auto]|].
    gets. rewrite (nlogsumexp_ln S _ q); auto. destruct (Q k Hk) as [P1 ->]. unfold nsub. simpl. f_equal.
    unfold Rdiv. rewrite <- (ln_mul (q k)); auto; [rewrite ln_Rinv; auto|apply Rinv_0_lt_compat; auto].
  - exists lw. split; auto. split; auto. split; auto. intros n k h w Hn Hk Hh Hw.
    set (d := (h * W + w)%nat). assert (Hd: (d < H * W)%nat) by (apply flat_lt; auto).
    rewrite EP. rewrite (rsum_ext S _ (csum_w s T d (i n d) 0)) by (intros j Hj; rewrite Hc by auto; ring).
    unfold csum_w at 2 4. rewrite E1. rewrite wsoft_sum by auto. rewrite Hc by auto. rewrite Rmult_1_r. unfold Rdiv. rewrite Rinv_1, Rmult_1_r.
    apply Glw; auto.
Qed.

Lemma lprod_idx3 (f : list nat -> R) N H W : lprod f (all_idx [N; H; W]) = rprod N (fun n => rprod H (fun h => rprod W (fun w => f [n; h; w]))).
Proof.
  rewrite lprod_all_idx_cons. apply rprod_ext. intros n _. rewrite lprod_idx2. reflexivity.
Qed.
Lemma straight_ok lw (k : tensor nat) N S H W p : cw lw N S H W p -> shape k = [N; H; W] ->
  (forall n h w, (n < N)%nat -> (h < H)%nat -> (w < W)%nat -> (get k [n; h; w] < S)%nat) ->
  exists o, straight_through lw k 1 = Ok o /\ hotat o N S H W (fun n d => get k [n; d / W; d mod W]%nat).
Proof.
  intros [Sw Gw] Sk Hk. unfold straight_through. rewrite Sw. set (yh := mkT [N; S; H; W] _). set (y := tmap nexp lw).
  assert (Sy: shape y = [N; S; H; W]) by exact Sw.
  destruct (bop_same nsub yh y) as (t & Et & St & Gt); [symmetry; exact Sy|]. unfold bsub. rewrite Et. cbn [bind].
  destruct (bop_same nadd t y) as (o & Eo & So & Go); [rewrite St; auto|]. unfold badd. rewrite Eo.
  rewrite St in *. cbn [shape yh] in *. exists o. split; auto. split; auto. split.
  - intros n d Hn Hd. destruct (flat_split d H W Hd) as (h & w & Hh & Hw & ->). rewrite flat_div, flat_mod by auto. auto.
  - intros n s h w Hn Hs Hh Hw. rewrite flat_div, flat_mod by auto. rewrite Go by (simpl; auto). rewrite Gt by (simpl; auto).
    unfold yh, y. cbn [get tmap nth remove_nth]. destruct (Gw n s h w Hn Hs Hh Hw) as [_ ->]. unfold hot. cbn [nexp nsub nneg nadd]. f_equal.
    destruct (s =? get k [n; h; w])%nat; ring.
Qed.

Section Law.
Context {V : Type}.
Variable EL : list nat -> (V -> R) -> R.
Hypothesis HEL : leaf_expectation EL.

Lemma cat_dim_row lw N S H W p n h w : cw lw N S H W p -> (n < N)%nat -> (h < H)%nat -> (w < W)%nat ->
  map (fun k => get lw (insert_nth 1 k [n; h; w])) (seq 0 (size lw 1)) = map (fun k => Fin (ln (p n (h * W + w)%nat k))) (seq 0 S).
Proof.
  intros [Sw Gw] Hn Hh Hw. unfold size. rewrite Sw. cbn [nth]. apply map_ext_in. intros k Hk. apply in_seq0 in Hk. cbn [insert_nth]. apply Gw; auto.
Qed.
Lemma cat_dim_outcome supp lw N S H W p r : (0 < S)%nat -> cw lw N S H W p -> outcome supp (@cat_dim V 1 lw) r ->
  exists k, r = Ok k /\ shape k = [N; H; W] /\ forall n h w, (n < N)%nat -> (h < H)%nat -> (w < W)%nat -> (get k [n; h; w] < S)%nat.
Proof.
  intros HS Hw Ho. unfold cat_dim in Ho. pose proof Hw as [Sw _]. rewrite Sw in Ho. cbn [remove_nth] in Ho.
  apply outcome_draw_tensor in Ho as [(e & idx & -> & Hb & Hd)|(t & -> & St & Gt)].
  - inbs. rewrite (cat_dim_row _ _ _ _ _ _ _ _ _ Hw) in Hd by auto. apply outcome_cat_inv in Hd as (i & _ & Hd); [|rewrite map_length, seq_length; lia].
    apply outcome_ret_inv in Hd. discriminate.
  - exists t. split; auto. split; auto. intros n h w Hn Hh Hw'. specialize (Gt [n; h; w] ltac:(simpl; auto)).
    rewrite (cat_dim_row _ _ _ _ _ _ _ _ _ Hw) in Gt by auto.
    apply outcome_cat_inv in Gt as (i & Hi & Gt); [|rewrite map_length, seq_length; lia]. apply outcome_ret_inv in Gt. inversion Gt as [Ei]. rewrite map_length, seq_length in Hi. lia.
Qed.
Lemma cat_dim_expect lw N S H W p (g : nat -> nat -> nat -> R) : cw lw N S H W p ->
  (forall n d, (n < N)%nat -> (d < H * W)%nat -> rsum S (p n d) = 1) ->
  expect EL (cat_dim 1 lw) (fun k => rprod N (fun n => rprod (H * W) (fun d => g n d (get k [n; d / W; d mod W]%nat)))) =
  rprod N (fun n => rprod (H * W) (fun d => rsum S (fun k => p n d k * g n d k))).
Proof.
  intros Hw Hs. unfold cat_dim. pose proof Hw as [Sw Gw]. rewrite Sw. cbn [remove_nth].
  set (hh := fun idx k => match idx with [n; y; x] => g n (y * W + x)%nat k | _ => 1 end).
  etransitivity; [apply (expect_ext EL HEL _ _ (fun t => lprod (fun idx => hh idx (get t idx)) (all_idx [N; H; W])))|].
  { intros t. rewrite lprod_idx3. apply rprod_ext. intros n Hn. rewrite rprod_mul. apply rprod2_ext. intros y x Hy Hx.
    rewrite flat_div, flat_mod by auto. reflexivity. }
  rewrite expect_draw_tensor by auto. rewrite lprod_idx3. apply rprod_ext. intros n Hn. rewrite rprod_mul. apply rprod2_ext. intros y x Hy Hx.
  cbn [expect hh]. rewrite (cat_dim_row _ _ _ _ _ _ _ _ _ Hw) by auto. rewrite map_length, seq_length. apply rsum_ext. intros k Hk.
  rewrite catp_rows; auto.
  - intros k' Hk'. apply (Gw n k' y x); auto.
  - apply Hs; auto. apply flat_lt; auto.
Qed.

(** The law of a sampler from the outputs of [us] to its inputs. *)
Definition clawful (f : tensor num -> M V (tensor num)) (N : nat) (us : list ulayer) (S H W S' H' W' : nat) (v : nat -> vals) : Prop :=
  forall p i, hotat p N S' H' W' i ->
  (forall supp r, outcome supp (f p) r -> exists o j, r = Ok o /\ hotat o N S H W j) /\
  (forall h, expect EL (f p) (fun o => cprod N S H W o h) =
     cprod N S' H' W' p (fun n d s r => evals us (vmul (h n) (v n)) d s r / evals us (v n) d s r)).

Lemma csum_law s S H W T N ca v : csum_ok s S H W -> T <> 0 -> cache_ok ca N S H W v ->
  clawful (csum_sample s T false ca) N [csum_u s T] S H W (cs_out s) H W v.
Proof.
  intros Hs HT Hc p i Hp. destruct (csum_weights_ok s S H W T p N i ca v Hs HT Hp Hc) as (lw & lw' & E1 & E2 & Hw).
  assert (EF: @csum_sample V s T false ca p = (index <~ cat_dim 1 lw' ;; lift (straight_through lw' index 1))).
  { unfold csum_sample, simple_draw. rewrite E1. cbn [lift mbind]. rewrite E2. reflexivity. }
  rewrite EF. pose proof Hs as (F1 & F2 & F3 & HS & HO & _). pose proof Hp as (_ & Hi & _).
  assert (HV: forall n, (n < N)%nat -> vpos (uDin (csum_u s T)) (uSin (csum_u s T)) 1 (v n)).
  { intros n Hn. cbn [csum_u uDin uSin]. rewrite F1, F2, F3. eapply cache_pos; eauto. }
  assert (Hsum: forall n d, (n < N)%nat -> (d < H * W)%nat -> rsum S (fun k => upost (csum_u s T) (v n) d (i n d) 0 k) = 1).
  { intros n d Hn Hd. rewrite <- F1. apply (upost_sum 1 (csum_u s T) (v n) d (i n d) 0%nat).
    - eapply csum_u_wf; eauto.
    - auto.
    - cbn [csum_u uDout]. rewrite F2, F3. auto.
    - apply Hi; auto.
    - lia. }
  split.
  - intros supp r Ho. apply outcome_bind in Ho as [(e & Ho & ->)|(k & Ho & Hr)].
    + destruct (cat_dim_outcome _ _ _ _ _ _ _ _ HS Hw Ho) as (t & E & _). discriminate.
    + destruct (cat_dim_outcome _ _ _ _ _ _ _ _ HS Hw Ho) as (t & E & St & Gt). inversion E; subst t.
      destruct (straight_ok lw' k N S H W _ Hw St Gt) as (o & Eo & Hh). rewrite Eo in Hr. apply outcome_ret_inv in Hr. eauto.
  - intros h. rewrite expect_bind by auto.
    transitivity (expect EL (cat_dim 1 lw') (fun k => rprod N (fun n => rprod (H * W) (fun d => h n d (get k [n; d / W; d mod W]%nat) 0%nat)))).
    + apply expect_ext_outcome; auto. intros k Ho. destruct (cat_dim_outcome _ _ _ _ _ _ _ _ HS Hw Ho) as (t & E & St & Gt). inversion E; subst t.
      destruct (straight_ok lw' k N S H W _ Hw St Gt) as (o & Eo & Hh). rewrite Eo. cbn [lift expect].
      rewrite (cprod_hot _ _ _ _ _ _ _ Hh). reflexivity.
    + rewrite (cat_dim_expect lw' N S H W _ (fun n d k => h n d k 0%nat) Hw Hsum). rewrite (cprod_hot _ _ _ _ _ _ _ Hp).
      apply rprod2_ext. intros n d Hn Hd. cbn [evals fold_left].
      change (evals [csum_u s T] (vmul (h n) (v n))) with (ueval (csum_u s T) (vmul (h n) (v n))). change (evals [csum_u s T] (v n)) with (ueval (csum_u s T) (v n)).
      rewrite <- (upost_step 1 (csum_u s T) (v n) (vmul (h n) (v n)) d (i n d) 0%nat); [|eapply csum_u_wf; eauto|auto|cbn [csum_u uDout]; rewrite F2, F3; auto|apply Hi; auto|lia].
      * cbn [csum_u uK]. rewrite F1. apply rsum_ext. intros k Hk. f_equal. cbn [csum_u ukids usel lprod]. unfold vmul.
        assert (0 < v n d k 0%nat) by (apply (cache_pos ca N S H W v n Hc Hn); auto). field. lra.
Qed.

Lemma prod_sample_hot kh kw N S H W H' W' p i : tiles kh kw H W H' W' -> hotat p N S H' W' i ->
  hotat (prod_sample kh kw p) N S H W (fun n d => i n (upar (prod_u S H W kh kw) d)).
Proof.
  intros Ht (Sp & Hi & Gp). pose proof (tiles_div _ _ _ _ _ _ Ht) as [EH EW]. pose proof Ht as (A & B & C & D & E1 & E2).
  pose proof (prod_u_wf S H W kh kw H' W' Ht) as Hw. cbn [prod_u upar]. split; [|split].
  - unfold prod_sample, repeat_interleave, size. rewrite Sp. cbn [shape set_nth nth]. rewrite E1, E2. reflexivity.
  - intros n d Hn Hd. apply Hi; auto. pose proof (uw_par _ _ Hw d Hd) as P. cbn [prod_u upar uDout] in P. rewrite EH, EW in P. rewrite EW. auto.
  - intros n s h w Hn Hs Hh Hw'. unfold prod_sample, repeat_interleave. cbn [get nth set_nth].
    rewrite flat_div, flat_mod by auto. rewrite EW. apply Gp; auto; apply Nat.div_lt_upper_bound; lia.
Qed.
Lemma prod_law kh kw N S H W H' W' v : tiles kh kw H W H' W' -> (forall n, (n < N)%nat -> vpos (H * W) S 1 (v n)) ->
  clawful (fun p => Ret (prod_sample kh kw p)) N [prod_u S H W kh kw] S H W S H' W' v.
Proof.
  intros Ht Hv p i Hp. pose proof (prod_sample_hot kh kw N S H W H' W' p i Ht Hp) as Hq.
  pose proof (prod_u_wf S H W kh kw H' W' Ht) as Hw. pose proof (tiles_div _ _ _ _ _ _ Ht) as [EH EW]. split.
  - intros supp r Ho. apply outcome_ret_inv in Ho. eauto.
  - intros h. cbn [expect]. rewrite (cprod_hot _ _ _ _ _ _ _ Hq), (cprod_hot _ _ _ _ _ _ _ Hp). set (U := prod_u S H W kh kw) in *.
    apply rprod_ext. intros n Hn. change (H * W)%nat with (uDin U). rewrite <- (uprod_kids 1 U) by auto.
    replace (H' * W')%nat with (uDout U) by (unfold U; cbn [prod_u uDout]; rewrite EH, EW; auto).
    apply rprod_ext. intros d Hd. pose proof Hp as (_ & Hi & _).
    assert (Hd': (d < H' * W')%nat) by (unfold U in Hd; cbn [prod_u uDout] in Hd; rewrite EH, EW in Hd; auto).
    change (evals [U] (vmul (h n) (v n))) with (ueval U (vmul (h n) (v n))). change (evals [U] (v n)) with (ueval U (v n)).
    assert (Hvn: vpos (uDin U) (uSin U) 1 (v n)) by (apply Hv; auto).
    assert (Ho: (i n d < uSout U)%nat) by (apply Hi; auto).
    rewrite <- (upost_step 1 U (v n) (vmul (h n) (v n)) d (i n d) 0%nat); auto.
    pose proof (upost_sum 1 U (v n) d (i n d) 0%nat Hw Hvn Hd Ho ltac:(lia)) as P1.
    change (uK U) with 1%nat in *. rewrite rsum_S, rsum_0 in P1 |- *.
    assert (P: upost U (v n) d (i n d) 0%nat 0%nat = 1) by lra. rewrite P, Rplus_0_l, Rmult_1_l.
    apply lprod_ext. intros d' Hk. cbn [U prod_u usel]. 
    assert (0 < v n d' (i n d) 0%nat).
    { apply Hvn; auto. apply (uw_kids _ _ Hw) in Hk; tauto. }
    apply (uw_kids _ _ Hw) in Hk as [L E']; auto. unfold vmul. rewrite E'. field. lra.
Qed.

(** Layers above each other: [f1] for [us1] above [f2] for [us2]. *)
Lemma claw_comp f1 f2 N us1 us2 S0 H0 W0 S1 H1 W1 S2 H2 W2 v :
  uchain 1 us2 (H0 * W0) S0 (H1 * W1) S1 -> uchain 1 us1 (H1 * W1) S1 (H2 * W2) S2 ->
  (forall n, (n < N)%nat -> vpos (H0 * W0) S0 1 (v n)) ->
  clawful f1 N us1 S1 H1 W1 S2 H2 W2 (fun n => evals us2 (v n)) ->
  clawful f2 N us2 S0 H0 W0 S1 H1 W1 v ->
  clawful (fun p => mbind (f1 p) f2) N (us2 ++ us1) S0 H0 W0 S2 H2 W2 v.
Proof.
  intros C2 C1 Hv L1 L2 p i Hp. destruct (L1 p i Hp) as [O1 E1]. split.
  - intros supp r Ho. apply outcome_bind in Ho as [(e & Ho & ->)|(q & Ho & Hr)].
    + destruct (O1 _ _ Ho) as (o & j & E & _). discriminate.
    + destruct (O1 _ _ Ho) as (o & j & E & Hj). inversion E; subst o. destruct (L2 q j Hj) as [O2 _]. eauto.
  - intros h. rewrite expect_bind by auto.
    transitivity (expect EL (f1 p) (fun q => cprod N S1 H1 W1 q (fun n d s r => evals us2 (vmul (h n) (v n)) d s r / evals us2 (v n) d s r))).
    + apply expect_ext_outcome; auto. intros q Ho. destruct (O1 _ _ Ho) as (o & j & E & Hj). inversion E; subst o. apply (L2 q j Hj).
    + rewrite E1. rewrite !(cprod_hot _ _ _ _ _ _ _ Hp). apply rprod2_ext. intros n d Hn Hd. destruct Hp as (_ & Hi & _).
      rewrite !evals_app. f_equal. eapply (evals_ext 1 us1); eauto.
      intros d' s r Hd' Hs Hr. unfold vmul at 1.
      assert (0 < evals us2 (v n) d' s r) by (eapply (evals_pos 1 us2); eauto). field. lra.
Qed.
Lemma claw_ext f g N us S H W S' H' W' v : (forall p, f p = g p) -> clawful f N us S H W S' H' W' v -> clawful g N us S H W S' H' W' v.
Proof. intros E L p i Hp. rewrite <- E. apply (L p i Hp). Qed.
Lemma claw_vext f N us S H W S' H' W' v v' : uchain 1 us (H * W) S (H' * W') S' ->
  (forall n, (n < N)%nat -> vagree (H * W) S 1 (v n) (v' n)) ->
  clawful f N us S H W S' H' W' v -> clawful f N us S H W S' H' W' v'.
Proof.
  intros C E L p i Hp. destruct (L p i Hp) as [A B]. split; auto. intros h. rewrite B. rewrite !(cprod_hot _ _ _ _ _ _ _ Hp).
  destruct Hp as (_ & Hi & _). apply rprod2_ext. intros n d Hn Hd. f_equal; apply (evals_ext 1 us _ _ _ _ _ _ C); auto.
  intros d' s r Hd' Hs Hr. unfold vmul. rewrite E; auto.
Qed.

Definition layer_cache (l : clayer) (ca : option (tensor num)) (N S H W : nat) (v : nat -> vals) : Prop :=
  match l with
  | CSum _ | CSumProd OSumProd _ _ _ => cache_ok ca N S H W v
  | CProd _ _ => True
  | CSumProd OProdSum _ kh kw => cache_ok ca N S (H / kh) (W / kw) (fun n => ueval (prod_u S H W kh kw) (v n))
  | CSumProd OOther _ _ _ => False
  end.
Lemma clay_law l S H W us S' H' W' T N ca v : clay l S H W us S' H' W' -> T <> 0 ->
  (forall n, (n < N)%nat -> vpos (H * W) S 1 (v n)) -> layer_cache l ca N S H W v ->
  clawful (clayer_sample T false l ca) N (us T) S H W S' H' W' v.
Proof.
  intros C HT Hv Hc. destruct C as [s S H W Hs|kh kw S H W H' W' Ht|s kh kw S H W H' W' Hs Ht|s kh kw S H W H' W' Ht Hs]; cbn [layer_cache clayer_sample] in *.
  - apply csum_law; auto.
  - apply prod_law; auto.
  - pose proof (claw_comp (fun p => Ret (prod_sample kh kw p)) (csum_sample s T false ca) N [prod_u (cs_out s) H W kh kw] [csum_u s T] S H W (cs_out s) H W (cs_out s) H' W' v) as L.
    cbn [mbind app] in L. apply L; auto.
    + apply csum_chain; auto.
    + apply prod_chain; auto.
    + apply prod_law; auto. intros n Hn. eapply (evals_pos 1 [csum_u s T]); [apply csum_chain; eauto|]. apply Hv; auto.
    + apply csum_law; auto.
  - apply (claw_comp (csum_sample s T false ca) (fun o => Ret (prod_sample kh kw o)) N [csum_u s T] [prod_u S H W kh kw] S H W S H' W' (cs_out s) H' W' v); auto.
    + apply prod_chain; auto.
    + apply csum_chain; auto.
    + destruct (tiles_div _ _ _ _ _ _ Ht) as [EH EW]. rewrite EH, EW in Hc. apply csum_law; auto.
    + apply prod_law; auto.
Qed.

(** Caches off: all values are one. *)
Lemma layer_cache_none l S H W us S' H' W' N : clay l S H W us S' H' W' -> layer_cache l None N S H W (fun _ _ _ _ => 1).
Proof.
  intros C. destruct C as [s S H W Hs|kh kw S H W H' W' Ht|s kh kw S H W H' W' Hs Ht|s kh kw S H W H' W' Ht Hs]; cbn [layer_cache cache_ok]; auto.
  destruct (tiles_div _ _ _ _ _ _ Ht) as [EH EW]. rewrite EH, EW. intros n d s' Hn Hd Hs'.
  pose proof (ueval_one 1 (prod_u S H W kh kw) (fun _ _ _ => 1) (prod_u_wf _ _ _ _ _ _ _ Ht)) as E. cbn [prod_u uDin uSin uDout uSout] in E.
  rewrite EH, EW in E. apply E; auto. intros ? ? ? ? ? ?; reflexivity.
Qed.
Lemma clays_law_off ls S H W us S' H' W' T N : clays ls S H W us S' H' W' -> T <> 0 ->
  clawful (clayers_sample T false (combine ls (map (fun _ => None) ls))) N (us T) S H W S' H' W' (fun _ _ _ _ => 1).
Proof.
  intros C HT. induction C as [S H W|l ls S H W us S1 H1 W1 us' S2 H2 W2 HL C IH].
  - intros p i Hp. cbn [combine map clayers_sample]. split.
    + intros supp r Ho. apply outcome_ret_inv in Ho. eauto.
    + intros h. cbn [expect]. rewrite !(cprod_hot _ _ _ _ _ _ _ Hp). apply rprod2_ext. intros n d Hn Hd. unfold vmul, evals. simpl. field.
  - cbn [combine map clayers_sample].
    pose proof (clay_chain _ _ _ _ _ _ _ _ T HL) as CH.
    apply (claw_comp (clayers_sample T false (combine ls (map (fun _ => None) ls))) (clayer_sample T false l None) N (us' T) (us T) S H W S1 H1 W1 S2 H2 W2); auto.
    + eapply clays_chain; eauto.
    + intros n Hn d s r _ _ _. lra.
    + eapply claw_vext; [eapply clays_chain; eauto| |exact IH]. intros n Hn d s r Hd Hs Hr. symmetry.
      apply (evals_one 1 (us T) (H * W) S (H1 * W1) S1 (fun _ _ _ => 1)); auto. intros ? ? ? ? ? ?; reflexivity.
    + eapply clay_law; eauto; [intros n Hn d s r _ _ _; lra|eapply layer_cache_none; eauto].
Qed.

(** Caches on, filled by a forward pass: [seen] is what they hold. *)
Lemma seen_cache l ca N S H W v us S' H' W' : clay l S H W us S' H' W' -> seen_by l ca N S H W v -> layer_cache l ca N S H W v.
Proof.
  intros C. destruct C as [s S H W Hs|kh kw S H W H' W' Ht|s kh kw S H W H' W' Hs Ht|s kh kw S H W H' W' Ht Hs]; cbn [seen_by layer_cache]; auto; intros (x & -> & Hx); exact Hx.
Qed.
Lemma clay_det l S H W us S1 H1 W1 us' S2 H2 W2 : clay l S H W us S1 H1 W1 -> clay l S H W us' S2 H2 W2 ->
  (forall T, us T = us' T) /\ S1 = S2 /\ H1 = H2 /\ W1 = W2.
Proof.
  intros C D. inversion C; subst; inversion D; subst; auto;
    repeat match goal with X : tiles _ _ _ _ _ _ |- _ => apply tiles_div in X as [? ?] end; subst; auto.
Qed.
Lemma clays_law_on ls S H W us S' H' W' N : clays ls S H W us S' H' W' -> forall v cas,
  (forall n, (n < N)%nat -> vpos (H * W) S 1 (v n)) -> all_seen N ls S H W v cas ->
  clawful (clayers_sample 1 false (combine ls cas)) N (us 1) S H W S' H' W' v.
Proof.
  intros C. induction C as [S H W|l ls S H W us S1 H1 W1 us' S2 H2 W2 HL C IH]; intros v cas Hv Ha; inversion Ha; subst.
  - intros p i Hp. cbn [combine map clayers_sample]. split.
    + intros supp r Ho. apply outcome_ret_inv in Ho. eauto.
    + intros h. cbn [expect]. rewrite !(cprod_hot _ _ _ _ _ _ _ Hp). pose proof Hp as (_ & Hi & _). apply rprod2_ext. intros n d Hn Hd. unfold vmul, evals. simpl.
      assert (0 < v n d (i n d) 0%nat) by (apply Hv; auto). field. lra.
  - match goal with X : clay l S H W ?u ?a ?b ?c |- _ => lazymatch X with HL => fail | _ => destruct (clay_det _ _ _ _ _ _ _ _ _ _ _ _ HL X) as (EU & <- & <- & <-) end end.
    cbn [combine clayers_sample]. pose proof (clay_chain _ _ _ _ _ _ _ _ 1 HL) as CH.
    match goal with X : all_seen N ls _ _ _ _ _ |- _ => rename X into HA end. rewrite <- EU in HA.
    apply (claw_comp (clayers_sample 1 false (combine ls cas0)) (clayer_sample 1 false l ca) N (us' 1) (us 1) S H W S1 H1 W1 S2 H2 W2 v); auto.
    + eapply clays_chain; eauto.
    + apply IH; auto. intros n Hn. eapply evals_pos; eauto.
    + eapply clay_law; [exact HL|lra|exact Hv|]. eapply seen_cache; eauto.
Qed.
End Law.
