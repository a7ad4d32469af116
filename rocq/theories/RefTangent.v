(** Values and derivatives of the operations of Tangent.v on finite tensors. *)
From Coq Require Import List Arith Lia Bool ZArith Reals Lra.
Import ListNotations.
From Verif Require Import Base RSum Num Tensor Prob Layers Circuit Net RefFwd RefSample RefConv Diff RefDiff PropDiff RefGrad Tangent.
Local Open Scope R_scope.
Local Arguments Nat.div : simpl never. Local Arguments Nat.modulo : simpl never. Local Arguments Nat.sub : simpl never.
Local Arguments Nat.mul : simpl never. Local Arguments Nat.add : simpl never. Local Arguments clamp : simpl never. Local Arguments bdim : simpl never.

(** A tensor of shape (N, D, K) with finite entries [f] and derivatives [t] *)
Definition dual3 (a : dual) (N D K : nat) (f t : nat -> nat -> nat -> R) : Prop :=
  shape (primal a) = [N; D; K] /\ shape (tangent a) = [N; D; K] /\
  forall n d k, (n < N)%nat -> (d < D)%nat -> (k < K)%nat -> get (primal a) [n; d; k] = Fin (f n d k) /\ get (tangent a) [n; d; k] = Fin (t n d k).
Definition dual2 (a : dual) (N D : nat) (f t : nat -> nat -> R) : Prop :=
  shape (primal a) = [N; D] /\ shape (tangent a) = [N; D] /\
  forall n d, (n < N)%nat -> (d < D)%nat -> get (primal a) [n; d] = Fin (f n d) /\ get (tangent a) [n; d] = Fin (t n d).

(** ** Softmax *)
Definition smean (K : nat) (f t : nat -> R) : R := rsum K (fun j => rsoftmax K f j * t j).
Lemma softmax3 (x : tensor num) N D K f n d k : shape x = [N; D; K] -> (forall k, (k < K)%nat -> get x [n; d; k] = Fin (f k)) -> (k < K)%nat ->
  get (tsoftmax 2 x) [n; d; k] = Fin (rsoftmax K f k).
Proof.
  intros Sx Gx Hk. unfold tsoftmax, size. cbn [get set_nth]. rewrite Sx. cbn [nth]. rewrite (nsum_fin K _ (fun j => exp (f j))) by (intros j Hj; rewrite Gx by auto; reflexivity).
  rewrite Gx by auto. cbn [nexp]. apply ndiv_fin. apply Rgt_not_eq. apply (rsumexp_pos K f). lia.
Qed.
Lemma soft_mean3 a N D K f t n d k : dual3 a N D K f t -> (n < N)%nat -> (d < D)%nat -> (k < K)%nat -> soft_mean 2 a [n; d; k] = Fin (smean K (f n d) (t n d)).
Proof.
  intros (Sp & St & G) Hn Hd Hk. unfold soft_mean, smean, size. rewrite Sp. cbn [nth set_nth]. apply nsum_fin. intros j Hj.
  rewrite (softmax3 (primal a) N D K (f n d)); auto; [|intros i Hi; apply G; auto]. rewrite (proj2 (G n d j Hn Hd Hj)). reflexivity.
Qed.
Lemma log_softmax3 a N D K f t : dual3 a N D K f t -> dual3 (dual_log_softmax 2 a) N D K (fun n d k => ln (rsoftmax K (f n d) k)) (fun n d k => t n d k - smean K (f n d) (t n d)).
Proof.
  intros H. pose proof H as (Sp & St & G). split; [exact Sp|]. split; [exact Sp|]. intros n d k Hn Hd Hk. cbn [dual_log_softmax primal tangent get]. split.
  - pose proof (log_softmax_get (primal a) 2 [n; d; k] (f n d)) as L. unfold size in L. rewrite Sp in L. cbn [nth length set_nth] in L. apply L; [lia|exact Hk|]. intros j Hj. apply G; auto.
  - rewrite (soft_mean3 a N D K f t) by auto. rewrite (proj2 (G n d k Hn Hd Hk)). reflexivity.
Qed.
Lemma dual_div3 a N D K f t T : T <> 0 -> dual3 a N D K f t -> dual3 (dual_div a T) N D K (fun n d k => f n d k / T) (fun n d k => t n d k / T).
Proof.
  intros HT (Sp & St & G). split; [exact Sp|]. split; [exact St|]. intros n d k Hn Hd Hk. cbn [dual_div primal tangent tmap get]. destruct (G n d k Hn Hd Hk) as [-> ->]. rewrite !ndiv_fin by auto. auto.
Qed.
(** The derivative of one weight *)
Definition dweight (K : nat) (T : R) (f t : nat -> R) (k : nat) : R := rsoftmax K (fun j => f j / T) k * (t k / T - smean K (fun j => f j / T) (fun j => t j / T)).
Lemma dweight_lim K T f t k : T <> 0 -> (k < K)%nat -> derivable_pt_lim (fun h => rsoftmax K (fun j => (f j + h * t j) / T) k) 0 (dweight K T f t k).
Proof.
  intros HT Hk. pose proof (ld_softmax 0 K (fun j h => (f j + h * t j) / T) (fun j => t j / T) k Hk) as L. unfold ld in L.
  eapply dlim_eq; [|apply L].
  - unfold dweight, smean. f_equal; [apply rsoftmax_ext; auto; intros; field; auto|]. f_equal. apply rsum_ext. intros j Hj. f_equal. apply rsoftmax_ext; auto. intros; field; auto.
  - intros j _. eapply dlim_ext; [|eapply dlim_eq; [|apply (derivable_pt_lim_plus (fun _ => f j / T) (fun h => (t j / T) * h) 0 0 (t j / T))]].
    + intros h. unfold plus_fct. field. auto.
    + ring.
    + apply derivable_pt_lim_const.
    + eapply dlim_eq; [|apply (derivable_pt_lim_scal (fun h => h) (t j / T) 0 1)]; [ring|]. apply derivable_pt_lim_id.
Qed.

(** ** Choices *)
(** The index that a row picks *)
Definition picked (K : nat) (w : nat -> R) (mpe : bool) (u : nat -> R) : nat := nargmax K (fun k => Fin (w k + (if mpe then 0 else rgumbel (u k)))).
Definition lweight (K : nat) (T : R) (f : nat -> R) (k : nat) : R := ln (rsoftmax K (fun j => f j / T) k).
Lemma choice_ok u mpe T g N D K f t : (0 < K)%nat -> T <> 0 -> dual3 g N D K f t -> (forall n d k, (n < N)%nat -> (d < D)%nat -> (k < K)%nat -> 0 <= u [n; d; k] < 1) ->
  exists i, dual_choice u mpe T g = Ok i /\ SIMPLE u mpe (logits_to_log_weights (primal g) 2 T) 2 = Ok (primal i) /\
    dual3 i N D K (fun n d k => if (k =? picked K (lweight K T (f n d)) mpe (fun k => u [n; d; k]))%nat then 1 else 0) (fun n d k => dweight K T (f n d) (t n d) k).
Proof.
  intros HK HT Hg Hu. pose proof (log_softmax3 _ N D K _ _ (dual_div3 g N D K f t T HT Hg)) as HL. set (l := dual_log_softmax 2 (dual_div g T)) in *. pose proof HL as (Sp & St & G).
  assert (PL: primal l = logits_to_log_weights (primal g) 2 T) by reflexivity.
  destruct (simple_argmax u mpe (primal l) N D K HK Sp Hu) as (oh & Eo & So & Go). { intros n d k Hn Hd Hk. rewrite (proj1 (G n d k Hn Hd Hk)). reflexivity. }
  unfold dual_choice, dual_log_weights. fold l. rewrite <- PL. rewrite Eo. pose proof Eo as Eo0. unfold dual_SIMPLE. unfold SIMPLE in Eo. cbv zeta in *.
  destruct (if mpe then Ok (primal l) else badd (primal l) (mkT (shape (primal l)) (fun idx => gumbel (u idx)))) as [b|] eqn:Eb; cbn [bind] in *; [|discriminate Eo].
  unfold dual_sub. cbn [primal tangent const dual_exp tmap shape].
  match type of Eo with bind (bsub ?a ?y) _ = _ => destruct (bsub a y) as [s|] eqn:Es; cbn [bind] in *; [|discriminate Eo] end.
  destruct (bop_same nsub (full (shape (primal l)) (Fin 0)) (mkT (shape (primal l)) (fun idx => nmul (nexp (get (primal l) idx)) (get (tangent l) idx)))) as (s' & Es' & Ss' & Gs'); [reflexivity|].
  unfold bsub at 1. rewrite Es'. cbn [bind]. unfold dual_add, detach. cbn [const primal tangent dual_exp]. unfold tmap in *. rewrite Eo. cbn [bind].
  assert (Ss: shape s = [N; D; K]).
  { unfold bsub in Es. destruct (bop_same nsub (mkT (shape (primal l)) (fun idx => Fin (if (nth 2 idx 0 =? get (targmax 2 (tsoftmax 2 b)) (remove_nth 2 idx))%nat then 1 else 0))) (mkT (shape (primal l)) (fun idx => nexp (get (primal l) idx)))) as (s2 & Es2 & Ss2 & _); [reflexivity|].
    rewrite Es2 in Es. injection Es as <-. rewrite Ss2. exact Sp. }
  destruct (bop_same nadd (full (shape s) (Fin 0)) (mkT (shape (primal l)) (fun idx => nmul (nexp (get (primal l) idx)) (get (tangent l) idx)))) as (t' & Et' & St' & Gt'); [cbn [full shape]; rewrite Ss, Sp; reflexivity|].
  unfold badd at 1. rewrite Et'. cbn [bind]. exists (mkDual oh t'). split; [reflexivity|]. split; [reflexivity|]. split; [exact So|]. split; [cbn [tangent]; rewrite St'; exact Ss|].
  intros n d k Hn Hd Hk. cbn [primal tangent]. split.
  - rewrite Go by auto. unfold picked. match goal with |- (if (k =? nargmax K ?a)%nat then _ else _) = Fin (if (k =? nargmax K ?c)%nat then _ else _) => replace (nargmax K a) with (nargmax K c); [destruct (_ =? _)%nat; reflexivity|] end.
    apply nargmax_ext. intros j Hj. rewrite (proj1 (G n d j Hn Hd Hj)). reflexivity.
  - rewrite Gt' by (cbn [full shape]; rewrite Ss; simpl; auto). cbn [full get]. destruct (G n d k Hn Hd Hk) as [-> ->]. cbn [nexp nmul nadd]. unfold dweight. rewrite exp_ln by (apply rsoftmax_pos; lia). f_equal. ring.
Qed.
Lemma picked_lt K w mpe u : (0 < K)%nat -> (picked K w mpe u < K)%nat.
Proof. intros. apply nargmax_lt; auto. Qed.

(** ** Selecting values *)
Lemma leaf_ok3 v i N D K a b f t : dual3 v N D K a b -> dual3 i N D K f t ->
  exists o, dual_leaf v i = Ok o /\ index_one_hot 2 (primal v) (primal i) = Ok (primal o) /\
    dual2 o N D (fun n d => rsum K (fun k => a n d k * f n d k)) (fun n d => rsum K (fun k => b n d k * f n d k + a n d k * t n d k)).
Proof.
  intros (Sa & Sb & Ga) (Sf & St & Gf). destruct v as [[s1 g1] [s2 g2]], i as [[s3 g3] [s4 g4]]. cbn [primal tangent shape get] in *. subst s1 s2 s3 s4.
  unfold dual_leaf, dual_index_one_hot, index_one_hot, size, dim. cbn [primal shape nth length]. rewrite !Nat.eqb_refl. cbn [assert bind].
  unfold dual_mul. cbn [primal tangent]. bcast. cbn [bind shape]. bcast. cbn [bind shape]. eexists. split; [reflexivity|]. split; [reflexivity|]. unfold dual2, dual_sum. cbn [primal tangent tsum reduce shape remove_nth get]. split; [reflexivity|]. split; [reflexivity|].
  intros n d Hn Hd. unfold size. cbn [shape nth insert_nth]. split; apply nsum_fin; intros k Hk; gets; destruct (Ga n d k Hn Hd Hk) as [A1 A2]; destruct (Gf n d k Hn Hd Hk) as [F1 F2]; rewrite ?A1, ?A2, ?F1, ?F2; reflexivity.
Qed.
(** Logits of shape (D, S, O) *)
Lemma select_ok lg p N D S O a b f t : dual3 lg D S O a b -> dual3 p N D O f t ->
  exists h, dual_select lg p = Ok h /\
    dual3 h N D S (fun n d s => rsum O (fun o => a d s o * f n d o)) (fun n d s => rsum O (fun o => b d s o * f n d o + a d s o * t n d o)).
Proof.
  intros (Sa & Sb & Ga) (Sf & St & Gf). destruct lg as [[s1 g1] [s2 g2]], p as [[s3 g3] [s4 g4]]. cbn [primal tangent shape get] in *. subst s1 s2 s3 s4.
  unfold dual_select, dual_index_one_hot, dual_unsqueeze, size, dim, unsqueeze. cbn [primal tangent shape nth length insert_nth]. rewrite !Nat.eqb_refl. cbn [assert bind].
  unfold dual_mul. cbn [primal tangent]. bcast. cbn [bind shape]. bcast. cbn [bind shape]. eexists. split; [reflexivity|]. unfold dual3, dual_sum. cbn [primal tangent tsum reduce shape remove_nth get]. split; [reflexivity|]. split; [reflexivity|].
  intros n d s Hn Hd Hs. unfold size. cbn [shape nth insert_nth]. split; apply nsum_fin; intros o Ho; cbn [get shape]; gets; destruct (Ga d s o Hd Hs Ho) as [A1 A2]; destruct (Gf n d o Hn Hd Ho) as [F1 F2]; rewrite ?A1, ?A2, ?F1, ?F2; reflexivity.
Qed.
Lemma rsum_pick K k (a : nat -> R) : (k < K)%nat -> rsum K (fun j => a j * (if (j =? k)%nat then 1 else 0)) = a k.
Proof. intros Hk. rewrite (rsum_single K k); [rewrite Nat.eqb_refl; ring|exact Hk|]. intros j _ Hne. destruct (Nat.eqb_spec j k); [contradiction|ring]. Qed.
