(** The value of a circuit as a sum over its induced trees: one product per sum node. *)
From Coq Require Import List Arith Lia Bool Reals Lra Permutation.
Import ListNotations.
From Verif Require Import Base RSum Circuit Net.
Local Open Scope R_scope.

(** * A product of sums is the sum over all choice functions *)
Fixpoint choice_funs (K : nat) (l : list nat) : list (nat -> nat) :=
  match l with
  | [] => [fun _ => 0%nat]
  | d :: l' => flat_map (fun k => map (fun c x => if Nat.eqb x d then k else c x) (choice_funs K l')) (seq 0 K)
  end.
Lemma choice_funs_lt K l : (0 < K)%nat -> forall c, In c (choice_funs K l) -> forall d, (c d < K)%nat.
Proof.
  intros HK. induction l as [|d l IH]; cbn [choice_funs]; intros c Hc x.
  - destruct Hc as [<-|[]]. exact HK.
  - apply in_flat_map in Hc as (k & Hk & Hc). apply in_seq in Hk. apply in_map_iff in Hc as (c' & <- & Hc'). destruct (Nat.eqb x d); [lia|auto].
Qed.
Lemma prod_of_sums K (a : nat -> nat -> R) l : NoDup l ->
  lprod (fun d => rsum K (a d)) l = lsum (fun c => lprod (fun d => a d (c d)) l) (choice_funs K l).
Proof.
  induction l as [|d l IH]; intros Hn; cbn [choice_funs].
  - unfold lsum, lprod. simpl. ring.
  - inversion Hn as [|? ? Hd Hl]; subst. rewrite lsum_flat_map. change (lprod (fun d0 => rsum K (a d0)) (d :: l)) with (rsum K (a d) * lprod (fun d0 => rsum K (a d0)) l).
    rewrite IH by auto. rewrite <- rsum_scal_r. unfold rsum. apply lsum_ext. intros k _. rewrite lsum_map, <- lsum_scal_l. apply lsum_ext. intros c _.
    change (a d k * lprod (fun d0 => a d0 (c d0)) l = a d (if Nat.eqb d d then k else c d) * lprod (fun d0 => a d0 (if Nat.eqb d0 d then k else c d0)) l).
    rewrite Nat.eqb_refl. f_equal. apply lprod_ext. intros x Hx. destruct (Nat.eqb_spec x d) as [->|]; [contradiction|auto].
Qed.

(** * Chains *)
Definition mine (ls : list ulayer) (d D : nat) : list nat := filter (fun d0 => Nat.eqb (owner ls d0) d) (seq 0 D).
Lemma in_mine ls d D x : In x (mine ls d D) <-> (x < D)%nat /\ owner ls x = d.
Proof. unfold mine. rewrite filter_In, in_seq, Nat.eqb_eq. lia. Qed.
Lemma nodup_mine ls d D : NoDup (mine ls d D).
Proof. apply NoDup_filter, seq_NoDup. Qed.
Lemma nodup_flat {A} (h : nat -> list A) (par : A -> nat) l : NoDup l -> (forall a, In a l -> NoDup (h a)) -> (forall a x, In a l -> In x (h a) -> par x = a) -> NoDup (flat_map h l).
Proof.
  induction l as [|a l IH]; cbn [flat_map]; intros Hn Hh Hp; [constructor|]. inversion Hn as [|? ? Ha Hl]; subst.
  assert (IH': NoDup (flat_map h l)) by (apply IH; auto; intros; [apply Hh|apply Hp]; simpl; auto).
  assert (Hd: forall x, In x (h a) -> ~ In x (flat_map h l)).
  { intros x Hx Hf. apply in_flat_map in Hf as (b & Hb & Hxb). apply Ha. rewrite <- (Hp a x (or_introl eq_refl) Hx), (Hp b x (or_intror Hb) Hxb). auto. }
  specialize (Hh a (or_introl eq_refl)). induction (h a) as [|x t IHt]; simpl; auto. inversion Hh; subst. constructor.
  - rewrite in_app_iff. intros [?|?]; [contradiction|]. apply (Hd x); simpl; auto.
  - apply IHt; auto. intros y Hy. apply Hd. simpl; auto.
Qed.
Lemma mine_cons Rn U ls d : uwf Rn U -> (forall d1, In d1 (mine ls d (uDout U)) -> (d1 < uDout U)%nat) ->
  Permutation (flat_map (ukids U) (mine ls d (uDout U))) (mine (U :: ls) d (uDin U)).
Proof.
  intros Hw _. apply NoDup_Permutation.
  - apply (nodup_flat (ukids U) (upar U)); [apply nodup_mine| |].
    + intros a Ha. apply in_mine in Ha. apply (uw_nodup _ _ Hw); tauto.
    + intros a x Ha Hx. apply in_mine in Ha. apply (uw_kids _ _ Hw a x) in Hx; tauto.
  - apply nodup_mine.
  - intros x. rewrite in_flat_map, in_mine. unfold owner. cbn [fold_left]. fold (owner ls (upar U x)). split.
    + intros (d1 & H1 & H2). apply in_mine in H1 as (H1 & H1'). apply (uw_kids _ _ Hw d1 x H1) in H2 as (H2 & <-). auto.
    + intros (Hx & Ho). exists (upar U x). pose proof (uw_par _ _ Hw x Hx) as Hp. split; [apply in_mine; auto|]. apply (uw_kids _ _ Hw); auto.
Qed.
(** A tree: its weight and the channel of every bottom feature *)
Definition tree := (R * (nat -> nat))%type.
Definition tree_val (ls : list ulayer) (D d r : nat) (v : vals) (t : tree) : R := fst t * lprod (fun d0 => v d0 (snd t d0) r) (mine ls d D).
Lemma evals_trees Rn ls : forall D S D' S' d o r, uchain Rn ls D S D' S' -> (d < D')%nat -> (o < S')%nat -> (r < Rn)%nat ->
  exists ts : list tree, (forall t, In t ts -> 0 < fst t /\ forall d0, In d0 (mine ls d D) -> (snd t d0 < S)%nat) /\
    forall v, evals ls v d o r = lsum (tree_val ls D d r v) ts.
Proof.
  induction ls as [|U ls IH]; intros D S D' S' d o r Hc Hd Ho Hr.
  - destruct Hc as [<- <-]. exists [(1, fun _ => o)]. split.
    + intros t [<-|[]]. split; [cbn [fst]; lra|]. intros; exact Ho.
    + intros v. unfold tree_val, lsum. cbn [fold_right map fst snd]. rewrite (lprod_perm _ _ [d]).
      * unfold lprod. simpl. unfold evals. simpl. ring.
      * apply NoDup_Permutation; [apply nodup_mine|repeat constructor; simpl; tauto|]. intros x. rewrite in_mine. unfold owner. simpl. split; [intros (_ & ->); auto|intros [->|[]]; auto].
  - destruct Hc as (Hw & <- & <- & Hc). destruct (IH _ _ _ _ d o r Hc Hd Ho Hr) as (ts & Hts & Hv).
    assert (HM: forall d1, In d1 (mine ls d (uDout U)) -> (d1 < uDout U)%nat) by (intros d1 H1; apply in_mine in H1; tauto).
    exists (flat_map (fun t => map (fun c => (fst t * lprod (fun d1 => uW U d1 (snd t d1) r (c d1)) (mine ls d (uDout U)),
      fun d0 => usel U (upar U d0) (snd t (upar U d0)) (c (upar U d0)) d0)) (choice_funs (uK U) (mine ls d (uDout U)))) ts).
    split.
    + intros t Ht. apply in_flat_map in Ht as (t0 & Ht0 & Ht). apply in_map_iff in Ht as (c & <- & Hcf). destruct (Hts t0 Ht0) as (P0 & B0). cbn [fst snd].
      assert (HK: forall d1, In d1 (mine ls d (uDout U)) -> (c d1 < uK U)%nat).
      { intros d1 H1. apply (choice_funs_lt (uK U) (mine ls d (uDout U))); auto. apply (uw_K_pos Rn U d1 (snd t0 d1) r Hw); auto. }
      split.
      * apply Rmult_lt_0_compat; auto. apply lprod_pos. intros d1 H1. apply (uw_pos _ _ Hw); auto.
      * intros d0 H0. apply in_mine in H0 as (H0 & HO). pose proof (uw_par _ _ Hw d0 H0) as Hp.
        assert (HP: In (upar U d0) (mine ls d (uDout U))) by (apply in_mine; auto).
        apply (uw_sel _ _ Hw); auto. apply (uw_kids _ _ Hw); auto.
    + intros v. change (evals (U :: ls) v) with (evals ls (ueval U v)). rewrite Hv, lsum_flat_map. apply lsum_ext. intros t Ht. rewrite lsum_map. unfold tree_val at 1.
      unfold ueval. rewrite prod_of_sums by apply nodup_mine. rewrite <- lsum_scal_l. apply lsum_ext. intros c _. unfold tree_val. cbn [fst snd].
      rewrite lprod_mult, Rmult_assoc. f_equal. f_equal. unfold uprod.
      rewrite <- (lprod_perm _ _ _ (mine_cons Rn U ls d Hw HM)), lprod_flat_map. apply lprod_ext. intros d1 H1. apply lprod_ext. intros d0 H0.
      apply (uw_kids _ _ Hw d1 d0 (HM d1 H1)) in H0 as (_ & <-). reflexivity.
Qed.

(** * Networks *)
(** Weight, repetition, leaf of every feature *)
Definition part := (R * nat * (nat -> nat))%type.
Definition p_w (p : part) : R := fst (fst p).
Definition p_r (p : part) : nat := snd (fst p).
Definition p_l (p : part) : nat -> nat := snd p.
Theorem net_trees G y : cnet_wf G -> (y < nCls G)%nat ->
  exists ps : list part, (forall p, In p ps -> 0 < p_w p /\ (p_r p < nR G)%nat /\ forall f, (f < nF G)%nat -> (p_l p f < nL G)%nat) /\
    forall q, neteval G q y = lsum (fun p => p_w p * rprod (nF G) (fun f => rprod (nC G) (fun c => q c f (p_l p f) (p_r p)))) ps.
Proof.
  intros Hw Hy.
  assert (H: forall m, (m <= nR G)%nat -> exists ps : list part, (forall p, In p ps -> 0 < p_w p /\ (p_r p < nR G)%nat /\ forall f, (f < nF G)%nat -> (p_l p f < nL G)%nat) /\
    forall q, rsum m (fun r => nmix G y r * evals (nls G) (leafval G q) 0%nat y r) = lsum (fun p => p_w p * rprod (nF G) (fun f => rprod (nC G) (fun c => q c f (p_l p f) (p_r p)))) ps).
  { induction m as [|r IH]; intros Hm.
    - exists []. split; [intros p []|]. intros q. rewrite rsum_0. reflexivity.
    - destruct IH as (ps & Hps & Eps); [lia|]. assert (Hr: (r < nR G)%nat) by lia.
      destruct (evals_trees (nR G) (nls G) _ _ _ _ 0%nat y r (nw_chain _ Hw) ltac:(lia) Hy Hr) as (ts & Hts & Ets).
      assert (ALL: forall d0, (d0 < nD G)%nat -> In d0 (mine (nls G) 0 (nD G))).
      { intros d0 H0. apply in_mine. split; auto. pose proof (owner_lt _ _ _ _ _ _ d0 (nw_chain _ Hw) H0). lia. }
      assert (SEQ: Permutation (mine (nls G) 0 (nD G)) (seq 0 (nD G))).
      { apply NoDup_Permutation; [apply nodup_mine|apply seq_NoDup|]. intros x. rewrite in_seq. split; [rewrite in_mine; lia|intros (_ & Hx); apply ALL; lia]. }
      exists (ps ++ map (fun t => (nmix G y r * fst t, r, fun f => snd t (ngroup G r f))) ts). split.
      + intros p Hp. apply in_app_iff in Hp as [Hp|Hp]; auto. apply in_map_iff in Hp as (t & <- & Ht). unfold p_w, p_r, p_l. cbn [fst snd]. destruct (Hts t Ht) as (P & B).
        split; [apply Rmult_lt_0_compat; auto; apply (nw_mix_pos _ Hw); auto|]. split; auto. intros f Hf. apply B, ALL, (nw_group _ Hw); auto.
      + intros q. rewrite rsum_S, lsum_app, Eps. f_equal. rewrite lsum_map, Ets, <- lsum_scal_l. apply lsum_ext. intros t Ht. unfold tree_val, p_w, p_r, p_l. cbn [fst snd].
        rewrite Rmult_assoc. f_equal. f_equal. rewrite (lprod_perm _ _ _ SEQ). fold (rprod (nD G) (fun d0 => leafval G q d0 (snd t d0) r)). unfold leafval.
        rewrite (rprod_group (nF G) (nD G) (ngroup G r) (fun f => rprod (nC G) (fun c => q c f (snd t (ngroup G r f)) r))) by (intros f Hf; apply (nw_group _ Hw); auto).
        apply rprod_ext. intros d0 H0. apply rprod_ext. intros f Hf. destruct (Nat.eqb_spec (ngroup G r f) d0) as [->|]; reflexivity. }
  apply (H (nR G)). lia.
Qed.
Theorem trees_one G y ps : cnet_wf G -> (y < nCls G)%nat ->
  (forall q, neteval G q y = lsum (fun p => p_w p * rprod (nF G) (fun f => rprod (nC G) (fun c => q c f (p_l p f) (p_r p)))) ps) -> lsum p_w ps = 1.
Proof.
  intros Hw Hy H. transitivity (neteval G (fun _ _ _ _ => 1) y).
  - rewrite H. apply lsum_ext. intros p _. rewrite (rprod_ext _ _ (fun _ => 1)), rprod_one; [ring|]. intros; apply rprod_one.
  - apply neteval_one; auto. intros c f l r _ _ _ _. reflexivity.
Qed.
