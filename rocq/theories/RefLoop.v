(** Facts about loaders and the loops (Loop.v). *)
From Coq Require Import List Arith Lia Bool ZArith Reals Lra Permutation.
Import ListNotations.
From Verif Require Import Base RSum Num Tensor Prob Layers Circuit Net RefFwd Leaf RefLeaf TypeChecks Einet RefNet RefEinet RefEinetS Build RefBuild Spec RefSpec RefSpecS Cluster RefCluster PropCluster Train RefTrain PropTrain Step LeafStep Loop.
Local Open Scope nat_scope.

(** * Lists by position *)
Lemma lsum_nth {B} (d : B) (f : B -> R) (l : list B) : rsum (length l) (fun i => f (nth i l d)) = lsum f l.
Proof.
  induction l as [|b l IH]; [reflexivity|]. cbn [length lsum]. rewrite <- IH. unfold rsum. cbn [seq lsum nth]. rewrite <- seq_shift, lsum_map. reflexivity.
Qed.
Lemma map_nth_seq {A B} (d : A) (f : A -> B) (l : list A) : map (fun i => f (nth i l d)) (seq 0 (length l)) = map f l.
Proof. induction l as [|b l IH]; [reflexivity|]. cbn [length seq map nth]. f_equal. rewrite <- seq_shift, map_map. exact IH. Qed.
Lemma filter_nth_seq {A} (d : A) (P : A -> bool) (l : list A) : length (filter (fun i => P (nth i l d)) (seq 0 (length l))) = length (filter P l).
Proof.
  rewrite <- (map_id l) at 2. rewrite <- (map_nth_seq d (fun a => a) l). generalize (seq 0 (length l)). induction l0 as [|i s IH]; [reflexivity|]. cbn [filter map].
  destruct (P (nth i l d)); cbn [length]; rewrite IH; reflexivity.
Qed.

(** * Groups *)
Section Chunks.
Context {A : Type}.
Implicit Type l : list A.
Lemma chunks_of_spec bs : 0 < bs -> forall fuel l, length l <= fuel ->
  concat (chunks_of fuel bs l) = l /\ Forall (fun c => 0 < length c <= bs) (chunks_of fuel bs l) /\
  forall i, nth_error (chunks_of fuel bs l) i = if i * bs <? length l then Some (firstn bs (skipn (i * bs) l)) else None.
Proof.
  intros Hb. induction fuel as [|fuel IH]; intros l Hl.
  - destruct l; [|cbn in Hl; lia]. split; [reflexivity|]. split; [constructor|]. intros [|i]; cbn [length]; [reflexivity|]. destruct (Nat.ltb_spec (S i * bs) 0); [lia|reflexivity].
  - destruct l as [|a l].
    + split; [reflexivity|]. split; [constructor|]. intros i. cbn [length]. destruct (Nat.ltb_spec (i * bs) 0); [lia|]. destruct i; reflexivity.
    + assert (L: length (skipn bs (a :: l)) <= fuel) by (rewrite skipn_length; cbn [length] in *; lia). destruct (IH _ L) as (E & F & G).
      change (chunks_of (S fuel) bs (a :: l)) with (firstn bs (a :: l) :: chunks_of fuel bs (skipn bs (a :: l))). split; [|split].
      * cbn [concat]. rewrite E. apply firstn_skipn.
      * constructor; auto. rewrite firstn_length. cbn [length]. lia.
      * intros [|i]; [cbn [nth_error Nat.mul skipn length]; destruct (Nat.ltb_spec 0 (S (length l))); [reflexivity|lia]|].
        cbn [nth_error]. rewrite G, skipn_length. replace (skipn (i * bs) (skipn bs (a :: l))) with (skipn (S i * bs) (a :: l)).
        { destruct (Nat.ltb_spec (i * bs) (length (a :: l) - bs)), (Nat.ltb_spec (S i * bs) (length (a :: l))); auto; exfalso; cbn [Nat.mul] in *; lia. }
        clear. generalize (a :: l). intros m. cbn [Nat.mul]. revert m. induction bs as [|bs IHb]; intros m; [reflexivity|]. destruct m as [|b m]; [cbn [Nat.add skipn]; destruct (i * S bs); reflexivity|].
        cbn [skipn]. change (S bs + i * S bs) with (S (bs + i * S bs)). cbn [skipn]. clear IHb. revert m. generalize (i * S bs). induction bs; intros k m; [reflexivity|]. destruct m; [destruct k; reflexivity|]. cbn [Nat.add skipn]. apply IHbs.
Qed.
Lemma chunks_concat bs l : 0 < bs -> concat (chunks bs l) = l.
Proof. intros H. apply chunks_of_spec; auto. Qed.
Lemma chunks_sizes bs l : 0 < bs -> Forall (fun c => 0 < length c <= bs) (chunks bs l).
Proof. intros H. apply chunks_of_spec; auto. Qed.
Lemma chunks_nth bs l i : 0 < bs -> nth_error (chunks bs l) i = if i * bs <? length l then Some (firstn bs (skipn (i * bs) l)) else None.
Proof. intros H. apply chunks_of_spec; auto. Qed.
(** A group of one row *)
Lemma chunks_single bs l : 0 < bs -> Exists (fun c => length c = 1) (chunks bs l) <-> (l <> [] /\ length l mod bs = 1 mod bs).
Proof.
  intros Hb. assert (D: forall i, i * bs < length l -> length (firstn bs (skipn (i * bs) l)) = Nat.min bs (length l - i * bs)) by (intros; rewrite firstn_length, skipn_length; reflexivity).
  split.
  - intros H. apply Exists_exists in H as (c & Hc & L). apply In_nth_error in Hc as (i & Hi). rewrite chunks_nth in Hi by auto. destruct (Nat.ltb_spec (i * bs) (length l)) as [Hl|]; [|discriminate].
    injection Hi as <-. rewrite D in L by auto. split; [intro; subst; cbn in Hl; lia|]. destruct (Nat.eq_dec bs 1) as [->|NB]; [reflexivity|].
    replace (length l) with (1 + i * bs) by lia. apply Nat.mod_add. lia.
  - intros [Hl M]. assert (P: 0 < length l) by (destruct l; [congruence|cbn; lia]).
    set (i := length l / bs). set (j := if bs =? 1 then 0 else i).
    assert (Hj: j * bs < length l /\ Nat.min bs (length l - j * bs) = 1).
    { pose proof (Nat.div_mod (length l) bs ltac:(lia)) as DM. unfold j. destruct (Nat.eqb_spec bs 1) as [->|NB]; [lia|]. rewrite (Nat.mod_small 1) in M by lia. fold i in DM. nia. }
    apply Exists_exists. exists (firstn bs (skipn (j * bs) l)). split; [|rewrite D; apply Hj]. apply (nth_error_In _ j). rewrite chunks_nth by auto. destruct (Nat.ltb_spec (j * bs) (length l)); [reflexivity|lia].
Qed.
End Chunks.

(** * Batches *)
Section Net.
Context {V : Type} (g : config) (o : oracle V) (E : einet V).
Hypothesis A : accepted g o E.
Variables (N : nat) (x : tensor (option V)).
Hypothesis HB : batch E N x.
Lemma collate_shape idxs : 0 < length idxs -> wshape (shape (collate x idxs)) (length idxs) (e_C E) (e_F E).
Proof.
  intros HL. destruct HB as [W _]. cbn [collate shape]. destruct W as [(-> & C1)|[->|(H & W & -> & HW & _)]]; cbn [tl]; [left; auto|right; left; auto|right; right; exists H, W; auto].
Qed.
Lemma collate_entry idxs n c f : entry (collate x idxs) n c f = entry x (nth n idxs 0) c f.
Proof.
  destruct HB as [W _]. unfold entry. cbn [collate shape get]. destruct W as [(-> & C1)|[->|(H & W & -> & HW & _)]]; cbn [tl ix hd]; reflexivity.
Qed.
Lemma collate_batch idxs : 0 < length idxs -> (forall i, In i idxs -> i < N) -> batch E (length idxs) (collate x idxs).
Proof.
  intros HL HI. split; [apply collate_shape; auto|]. intros n c f v Hn Hc Hf. rewrite collate_entry. destruct HB as [_ S]. apply S; auto. apply HI, nth_In; auto.
Qed.
Lemma collate_lik idxs n k : 0 < length idxs -> (forall i, In i idxs -> i < N) -> n < length idxs -> k < e_K E -> lik E (collate x idxs) None n k = lik E x None (nth n idxs 0) k.
Proof.
  intros HL HI Hn Hk. pose proof (collate_batch idxs HL HI) as CB. assert (Hi: nth n idxs 0 < N) by (apply HI, nth_In; auto).
  destruct (forward_ln g o E A N x HB) as (y & Ey & _ & Gy). destruct (forward_ln g o E A _ _ CB) as (y' & Ey' & _ & Gy').
  pose proof (forward_rows E (accepted_ok g o E A) N (length idxs) x (collate x idxs) None y y' (nth n idxs 0) n k (batch_input E N x HB) (batch_input E _ _ CB) Ey Ey' Hi Hn Hk (fun c f _ _ _ => eq_sym (collate_entry idxs n c f))) as EQ.
  unfold lik. rewrite Ey, Ey', EQ. reflexivity.
Qed.
Lemma collate_marg idxs n : 0 < length idxs -> (forall i, In i idxs -> i < N) -> n < length idxs -> marg E (collate x idxs) n = marg E x (nth n idxs 0).
Proof. intros HL HI Hn. unfold marg. f_equal. apply rsum_ext. intros k Hk. apply collate_lik; auto. Qed.

(** The class that is predicted for a row *)
Definition guess (n : nat) : nat := nargmax (e_K E) (fun k => Fin (ln (lik E x None n k))).
Lemma guess_predicts n : n < N -> predicts E x n (guess n).
Proof.
  intros Hn. pose proof (classes_pos g o E A) as HK. destruct (forward_ln g o E A N x HB) as (y & _ & _ & G).
  assert (HF: forall k, (k < e_K E)%nat -> (fun k => Fin (ln (lik E x None n k))) k = Fin (ln (lik E x None n k))) by reflexivity.
  unfold predicts, guess. split; [apply nargmax_lt; auto|]. split.
  - intros k Hk. pose proof (nargmax_max (e_K E) _ (fun k => ln (lik E x None n k)) HK HF k Hk) as L. cbn beta in L. set (c := nargmax _ _) in *. assert (Hc: c < e_K E) by (apply nargmax_lt; auto).
    destruct (Rle_dec (- lik E x None n c) (- lik E x None n k)) as [|D]; auto. exfalso. apply Rnot_le_lt, Ropp_lt_cancel in D. apply ln_increasing in D; [lra|apply (G n c Hn Hc)].
  - intros k Hk. pose proof (nargmax_first (e_K E) _ (fun k => ln (lik E x None n k)) HK HF k Hk) as L. cbn beta in L. set (c := nargmax _ _) in *. assert (Hc: c < e_K E) by (apply nargmax_lt; auto).
    destruct (Rlt_dec (- lik E x None n c) (- lik E x None n k)) as [|D]; auto. exfalso. apply Rnot_lt_le, Ropp_le_cancel in D. apply ln_mono in D; [lra|apply (G n c Hn Hc)].
Qed.

(** One batch of the evaluation loop *)
Definition hits (labels : tensor nat) (l : list nat) : nat := length (filter (fun n => guess n =? get labels [n]) l).
Lemma lls_ok idxs : 0 < length idxs -> (forall i, In i idxs -> i < N) -> exists y lls, forward E (collate x idxs) None = Ok y /\ log_likelihoods y None = Ok lls /\
  shape y = [length idxs; e_K E] /\ (forall n, n < length idxs -> get (targmax 1 y) [n] = guess (nth n idxs 0)) /\
  shape lls = (if e_K E =? 1 then [length idxs; 1] else [length idxs]) /\ total lls = Fin (lsum (fun n => ln (marg E x n)) idxs) /\ numel (shape lls) = length idxs /\
  map (fun i => get lls (unravel (shape lls) i)) (seq 0 (numel (shape lls))) = map (fun n => Fin (ln (marg E x n))) idxs.
Proof.
  intros HL HI. pose proof (collate_batch idxs HL HI) as CB. destruct (C61_log_likelihoods V g o E _ _ A CB) as (y & lls & Ey & El & Sl & G). exists y, lls. split; [auto|]. split; [auto|].
  destruct (forward_ln g o E A _ _ CB) as (y' & Ey' & Sy & Gy). rewrite Ey in Ey'. injection Ey' as <-. split; [auto|]. split.
  { intros n Hn. unfold targmax, reduce, size. cbn [get insert_nth]. rewrite Sy. cbn [nth]. unfold guess. apply nargmax_ext. intros k Hk. destruct (Gy n k Hn Hk) as [_ ->]. rewrite collate_lik by auto. reflexivity. }
  split; [auto|].
  assert (GM: forall n, n < length idxs -> get lls (if e_K E =? 1 then [n; 0] else [n]) = Fin (ln (marg E x (nth n idxs 0)))) by (intros n Hn; rewrite G by auto; rewrite collate_marg by auto; reflexivity).
  rewrite <- (lsum_nth 0 (fun n => ln (marg E x n)) idxs). rewrite <- (map_nth_seq 0 (fun n => Fin (ln (marg E x n))) idxs). destruct (e_K E =? 1).
  - destruct (total2 lls (length idxs) 1 (fun n _ => ln (marg E x (nth n idxs 0))) Sl) as [-> NL]. { intros n k Hn Hk. replace k with 0 by lia. apply GM; auto. }
    rewrite NL, Nat.mul_1_r. split; [f_equal; apply rsum_ext; intros n _; rewrite rsum_S, rsum_0; ring|]. split; [reflexivity|].
    apply map_ext_in. intros n Hn. apply in_seq in Hn. rewrite Sl. cbn [unravel numel]. rewrite Nat.mul_1_r, !Nat.div_1_r, Nat.mod_1_r. apply GM. lia.
  - destruct (total1 lls (length idxs) (fun n => ln (marg E x (nth n idxs 0))) Sl GM) as [-> NL]. rewrite NL. split; [reflexivity|]. split; [reflexivity|].
    apply map_ext_in. intros n Hn. apply in_seq in Hn. rewrite Sl. cbn [unravel numel]. rewrite Nat.div_1_r. apply GM. lia.
Qed.
Lemma test_step_ok cl labels t idxs l0 : 1 < length idxs -> (forall i, In i idxs -> i < N) -> ta_loss t = Fin l0 ->
  test_step cl E t (collate x idxs, collate labels idxs) = Ok (mkTally (Fin (l0 - lsum (fun n => ln (marg E x n)) idxs)) (ta_losses t ++ map (fun n => Fin (ln (marg E x n))) idxs)
    (if cl then ta_correct t + hits labels idxs else ta_correct t) (if cl then ta_total t + length idxs else ta_total t)).
Proof.
  intros HL HI T0. destruct (lls_ok idxs ltac:(lia) HI) as (y & lls & Ey & El & Sy & Gy & Sl & TL & NL & ML). unfold test_step. rewrite Ey. cbn [bind]. rewrite El. cbn [bind].
  assert (AL: add_list (ta_losses t) lls = Ok (ta_losses t ++ map (fun n => Fin (ln (marg E x n))) idxs)).
  { unfold add_list. rewrite ML. rewrite Sl. destruct (e_K E =? 1); cbn [filter]; destruct (Nat.eqb_spec (length idxs) 1); cbn [negb]; try lia; reflexivity. }
  rewrite AL. cbn [bind]. rewrite T0, TL. cbn [nmul nadd]. replace (l0 + -1 * lsum (fun n => ln (marg E x n)) idxs)%R with (l0 - lsum (fun n => ln (marg E x n)) idxs)%R by ring.
  destruct cl; [|reflexivity]. do 2 f_equal. unfold size. cbn [collate shape nth]. unfold hits. rewrite <- (filter_nth_seq 0 (fun n => guess n =? get labels [n]) idxs). f_equal. f_equal.
  apply filter_ext_in. intros n Hn. apply in_seq in Hn. rewrite Gy by lia. reflexivity.
Qed.
Lemma test_step_single cl labels t idxs : length idxs = 1 -> (forall i, In i idxs -> i < N) -> test_step cl E t (collate x idxs, collate labels idxs) = Err TypeErr.
Proof.
  intros HL HI. destruct (lls_ok idxs ltac:(lia) HI) as (y & lls & Ey & El & Sy & Gy & Sl & TL & NL & ML). unfold test_step. rewrite Ey. cbn [bind]. rewrite El. cbn [bind].
  unfold add_list. rewrite Sl, HL. destruct (e_K E =? 1); reflexivity.
Qed.
Lemma test_steps_ok cl labels cs : Forall (fun c => 1 < length c) cs -> (forall i, In i (concat cs) -> i < N) -> forall t l0, ta_loss t = Fin l0 ->
  test_steps cl E t (map (fun idxs => (collate x idxs, collate labels idxs)) cs) = Ok (mkTally (Fin (l0 - lsum (fun n => ln (marg E x n)) (concat cs))) (ta_losses t ++ map (fun n => Fin (ln (marg E x n))) (concat cs))
    (if cl then ta_correct t + hits labels (concat cs) else ta_correct t) (if cl then ta_total t + length (concat cs) else ta_total t)).
Proof.
  induction cs as [|c cs IH]; intros HF HI t l0 T0.
  - cbn [map test_steps concat lsum length hits filter]. rewrite Rminus_0_r, <- T0, app_nil_r. destruct t as [ta tb tc td]; cbn [ta_loss ta_losses ta_correct ta_total]. unfold hits. cbn [filter length]. rewrite !Nat.add_0_r. destruct cl; reflexivity.
  - inversion HF as [|? ? H1 H2]; subst. cbn [map test_steps concat] in *. rewrite (test_step_ok cl labels t c l0) by (auto; intros i Hi; apply HI; apply in_or_app; auto). cbn [bind].
    rewrite (IH H2 (fun i Hi => HI i (in_or_app _ _ _ (or_intror Hi))) _ (l0 - lsum (fun n => ln (marg E x n)) c)%R) by reflexivity. cbn [ta_losses ta_correct ta_total]. rewrite lsum_app, map_app, app_assoc, app_length. do 2 f_equal.
    + f_equal. ring.
    + destruct cl; [|reflexivity]. unfold hits. rewrite filter_app, app_length. lia.
    + destruct cl; [|reflexivity]. lia.
Qed.
Lemma test_steps_single cl labels cs : Forall (fun c => 0 < length c) cs -> Exists (fun c => length c = 1) cs -> (forall i, In i (concat cs) -> i < N) -> forall t l0, ta_loss t = Fin l0 ->
  test_steps cl E t (map (fun idxs => (collate x idxs, collate labels idxs)) cs) = Err TypeErr.
Proof.
  induction cs as [|c cs IH]; intros HF HX HI t l0 T0; [inversion HX|]. inversion HF as [|? ? H1 H2]; subst. cbn [map test_steps concat] in *.
  destruct (Nat.eq_dec (length c) 1) as [L|L].
  - rewrite test_step_single; auto. intros i Hi. apply HI. apply in_or_app. auto.
  - rewrite (test_step_ok cl labels t c l0) by (auto; try lia; intros i Hi; apply HI; apply in_or_app; auto). cbn [bind]. eapply IH; auto; [|intros i Hi; apply HI; apply in_or_app; auto|reflexivity].
    inversion HX; subst; [congruence|auto].
Qed.
End Net.
