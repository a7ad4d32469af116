(** Sampling programs as trees of random draws.

    [Cat w k] is one draw from [torch.distributions.Categorical(logits=w)];
    [LeafD key k] is one draw from the leaf distribution at batch position [key]
    (channel, feature, leaf, repetition).  [Fail e] is a raised exception. *)
From Coq Require Import List Arith Lia Bool Reals Lra.
Import ListNotations.
From Verif Require Import Base RSum Num Tensor.
Local Open Scope R_scope.

Inductive M (V A : Type) : Type :=
| Ret (a : A)
| Fail (e : exn)
| Cat (w : list num) (k : nat -> M V A)
| LeafD (key : list nat) (k : V -> M V A).
Arguments Ret {V A} _.
Arguments Fail {V A} _.
Arguments Cat {V A} _ _.
Arguments LeafD {V A} _ _.

Section Monad.
Context {V : Type}.

Fixpoint mbind {A B} (m : M V A) (f : A -> M V B) : M V B :=
  match m with
  | Ret a => f a
  | Fail e => Fail e
  | Cat w k => Cat w (fun i => mbind (k i) f)
  | LeafD key k => LeafD key (fun v => mbind (k v) f)
  end.
Definition lift {A} (r : res A) : M V A := match r with Ok a => Ret a | Err e => Fail e end.

Fixpoint draws {A} (ds : list (M V A)) : M V (list A) :=
  match ds with
  | [] => Ret []
  | d :: ds' => mbind d (fun a => mbind (draws ds') (fun l => Ret (a :: l)))
  end.

(** One independent draw per index of the shape, in row-major order. *)
Fixpoint draw_fun {A} (dflt : A) (s : list nat) (d : list nat -> M V A) : M V (list nat -> A) :=
  match s with
  | [] => mbind (d []) (fun a => Ret (fun _ => a))
  | n :: s' =>
      mbind (draws (map (fun i => draw_fun dflt s' (fun idx => d (i :: idx))) (seq 0 n)))
            (fun fs => Ret (fun idx => match idx with
                                       | i :: idx' => nth i fs (fun _ => dflt) idx'
                                       | [] => dflt end))
  end.
Definition draw_tensor {A} (dflt : A) (s : list nat) (d : list nat -> M V A) : M V (tensor A) :=
  mbind (draw_fun dflt s d) (fun g => Ret (mkT s g)).

(** torch.distributions.Categorical(logits=lw).sample() over the last dimension.
    The constructor subtracts the logsumexp and rejects NaN. *)
Definition cat_row (lw : tensor num) (idx : list nat) : list num :=
  let k := last (shape lw) 0%nat in
  map (fun i => nsub (get lw (idx ++ [i])) (nlogsumexp k (fun j => get lw (idx ++ [j])))) (seq 0 k).
Definition categorical (lw : tensor num) : M V (tensor nat) :=
  let s := removelast (shape lw) in
  if existsb (fun idx => existsb isnan (cat_row lw idx)) (all_idx s)
  then Fail ValueErr
  else draw_tensor 0%nat s (fun idx => Cat (cat_row lw idx) (fun i => Ret i)).
End Monad.

Declare Scope prob_scope.
Delimit Scope prob_scope with prob.
Notation "x <~ m ;; k" := (mbind m (fun x => k))
  (at level 61, m at next level, right associativity) : prob_scope.
Open Scope prob_scope.

(** ** Expectation *)
Definition catp (w : list num) (i : nat) : R := pval (nth i w NInf) / lsum pval w.

Section Expect.
Context {V : Type}.
(** [EL key f] is the expectation of [f] under the leaf distribution at [key]. *)
Variable EL : list nat -> (V -> R) -> R.

Fixpoint expect {A} (m : M V A) (g : A -> R) : R :=
  match m with
  | Ret a => g a
  | Fail _ => 0
  | Cat w k => rsum (length w) (fun i => catp w i * expect (k i) g)
  | LeafD key k => EL key (fun v => expect (k v) g)
  end.
End Expect.

(** What is assumed of a leaf expectation. *)
Record leaf_expectation {V} (EL : list nat -> (V -> R) -> R) : Prop := {
  EL_ext : forall key f g, (forall v, f v = g v) -> EL key f = EL key g;
  EL_scal : forall key c f, EL key (fun v => c * f v) = c * EL key f;
  EL_one : forall key, EL key (fun _ => 1) = 1 }.

(** The leaf expectation of a discrete leaf with values [0 .. K-1]. *)
Definition EL_discrete (K : nat) (p : list nat -> nat -> R) (key : list nat) (f : nat -> R) : R :=
  rsum K (fun v => p key v * f v).
Lemma EL_discrete_ok K p : (forall key, rsum K (p key) = 1) -> leaf_expectation (EL_discrete K p).
Proof.
  intros H. unfold EL_discrete. split; intros.
  - apply rsum_ext. intros. rewrite H0; auto.
  - rewrite <- rsum_scal_l. apply rsum_ext. intros. ring.
  - transitivity (rsum K (p key)); [|auto]. apply rsum_ext. intros. ring.
Qed.

(** ** Possible outcomes.  [supp key v]: the leaf at [key] can return [v].  A draw from no categories raises. *)
Section Outcomes.
Context {V : Type}.
Variable supp : list nat -> V -> Prop.
Inductive outcome {A} : M V A -> res A -> Prop :=
| out_ret a : outcome (Ret a) (Ok a)
| out_fail e : outcome (Fail e) (Err e)
| out_cat w k i r : (i < length w)%nat -> outcome (k i) r -> outcome (Cat w k) r
| out_empty w k : length w = 0%nat -> outcome (Cat w k) (Err RuntimeErr)
| out_leaf key k v r : supp key v -> outcome (k v) r -> outcome (LeafD key k) r.

Lemma outcome_bind {A B} (m : M V A) (f : A -> M V B) r :
  outcome (mbind m f) r ->
  (exists e, outcome m (Err e) /\ r = Err e) \/ (exists a, outcome m (Ok a) /\ outcome (f a) r).
Proof.
  revert f r; induction m as [a|e|w k IH|key k IH]; simpl; intros f r H.
  - right. exists a. split; [constructor|auto].
  - inversion H; subst. left. exists e. split; [constructor|auto].
  - inversion H as [| |? ? ? ? Hi Hk| |]; subst; [|left; exists RuntimeErr; split; [apply out_empty|]; auto].
    destruct (IH _ _ _ Hk) as [(e & He & ->)|(a & Ha & Hr)].
    + left. exists e. split; auto. eapply out_cat; eauto.
    + right. exists a. split; auto. eapply out_cat; eauto.
  - inversion H; subst. destruct (IH _ _ _ H4) as [(e & He & ->)|(a & Ha & Hr)].
    + left. exists e. split; auto. econstructor; eauto.
    + right. exists a. split; auto. econstructor; eauto.
Qed.

Lemma outcome_bind_intro {A B} (m : M V A) (f : A -> M V B) a r :
  outcome m (Ok a) -> outcome (f a) r -> outcome (mbind m f) r.
Proof.
  revert f r; induction m as [a0|e|w k IH|key k IH]; simpl; intros f r H Hf; inversion H; subst; auto.
  - eapply out_cat; eauto.
  - econstructor; eauto.
Qed.
End Outcomes.

(** * Facts about expectations *)
Section ExpectFacts.
Context {V : Type}.
Variable EL : list nat -> (V -> R) -> R.
Hypothesis HEL : leaf_expectation EL.

Lemma expect_ext {A} (m : M V A) g h : (forall a, g a = h a) -> expect EL m g = expect EL m h.
Proof.
  intros H. induction m as [a|e|w k IH|key k IH]; simpl; auto.
  - apply rsum_ext. intros. rewrite IH; auto.
  - apply (EL_ext EL HEL). auto.
Qed.
Lemma expect_bind {A B} (m : M V A) (f : A -> M V B) g :
  expect EL (mbind m f) g = expect EL m (fun a => expect EL (f a) g).
Proof.
  induction m as [a|e|w k IH|key k IH]; simpl; auto.
  - apply rsum_ext. intros. rewrite IH; auto.
  - apply (EL_ext EL HEL). auto.
Qed.
Lemma expect_scal {A} (m : M V A) c g : expect EL m (fun a => c * g a) = c * expect EL m g.
Proof.
  induction m as [a|e|w k IH|key k IH]; simpl; auto; try lra.
  - rewrite <- rsum_scal_l. apply rsum_ext. intros. rewrite IH. ring.
  - rewrite <- (EL_scal EL HEL). apply (EL_ext EL HEL). auto.
Qed.

Lemma expect_draws {A} (dflt : A) (ds : list (M V A)) (h : nat -> A -> R) :
  expect EL (draws ds) (fun l => rprod (length ds) (fun i => h i (nth i l dflt))) =
  rprod (length ds) (fun i => expect EL (nth i ds (Fail GenericExc)) (h i)).
Proof.
  revert h; induction ds as [|d ds IH]; intros h.
  - reflexivity.
  - cbn [draws length]. rewrite expect_bind.
    assert (S1: forall n (f : nat -> R), rprod (S n) f = f 0%nat * rprod n (fun i => f (S i))).
    { intros n f. unfold rprod. cbn [seq lprod]. f_equal. rewrite lprod_seq_shift. reflexivity. }
    rewrite S1. cbn [nth]. rewrite <- IH.
    rewrite Rmult_comm, <- expect_scal. apply expect_ext. intros a.
    rewrite expect_bind. rewrite Rmult_comm, <- expect_scal. apply expect_ext. intros l. simpl.
    rewrite S1. reflexivity.
Qed.

Lemma expect_draw_fun {A} (dflt : A) s : forall (d : list nat -> M V A) (h : list nat -> A -> R),
  expect EL (draw_fun dflt s d) (fun g => lprod (fun idx => h idx (g idx)) (all_idx s)) =
  lprod (fun idx => expect EL (d idx) (h idx)) (all_idx s).
Proof.
  induction s as [|n s IH]; intros d h.
  - cbn [draw_fun all_idx lprod]. rewrite expect_bind. rewrite Rmult_1_r. apply expect_ext.
    intros a. simpl. ring.
  - cbn [draw_fun all_idx]. rewrite expect_bind.
    rewrite (lprod_flat_map (fun idx => expect EL (d idx) (h idx))).
    pose proof (expect_draws (fun _ => dflt)
      (map (fun i => draw_fun dflt s (fun idx => d (i :: idx))) (seq 0 n))
      (fun i g => lprod (fun idx => h (i :: idx) (g idx)) (all_idx s))) as E.
    rewrite map_length, seq_length in E.
    transitivity (rprod n (fun i => expect EL (draw_fun dflt s (fun idx => d (i :: idx)))
       (fun g => lprod (fun idx => h (i :: idx) (g idx)) (all_idx s)))).
    + transitivity (rprod n (fun i => expect EL (nth i
         (map (fun i0 => draw_fun dflt s (fun idx => d (i0 :: idx))) (seq 0 n)) (Fail GenericExc))
         (fun g => lprod (fun idx => h (i :: idx) (g idx)) (all_idx s)))).
      * rewrite <- E. apply expect_ext. intros fs. simpl.
        rewrite (lprod_flat_map (fun idx => h idx _)). unfold rprod. apply lprod_ext.
        intros i _. rewrite lprod_map. reflexivity.
      * apply rprod_ext. intros i Hi. rewrite nth_map_seq by auto. reflexivity.
    + unfold rprod. apply lprod_ext. intros i _. rewrite lprod_map.
      apply (IH (fun idx => d (i :: idx)) (fun idx => h (i :: idx))).
Qed.

(** Independent draws: the expectation of a product is the product of expectations. *)
Lemma expect_draw_tensor {A} (dflt : A) s (d : list nat -> M V A) (h : list nat -> A -> R) :
  expect EL (draw_tensor dflt s d) (fun t => lprod (fun idx => h idx (get t idx)) (all_idx s)) =
  lprod (fun idx => expect EL (d idx) (h idx)) (all_idx s).
Proof. unfold draw_tensor. rewrite expect_bind. simpl. apply expect_draw_fun. Qed.
End ExpectFacts.

(** * Facts about outcomes *)
Section OutcomeFacts.
Context {V : Type}.

Lemma outcome_bind_all (supp : list nat -> V -> Prop) {A B} (m : M V A) (f : A -> M V B) (P : res A -> Prop) (Q : res B -> Prop) :
  (forall r, outcome supp m r -> P r) ->
  (forall e, P (Err e) -> Q (Err e)) ->
  (forall a, P (Ok a) -> forall r, outcome supp (f a) r -> Q r) ->
  forall r, outcome supp (mbind m f) r -> Q r.
Proof.
  intros Hm He Ha r H. apply outcome_bind in H as [(e & H1 & ->)|(a & H1 & H2)]; eauto.
Qed.
Lemma outcome_ret_inv (supp : list nat -> V -> Prop) {A} (a : A) r : outcome supp (Ret a) r -> r = Ok a.
Proof. intros H; inversion H; auto. Qed.

Lemma outcome_draws (supp : list nat -> V -> Prop) {A} (ds : list (M V A)) r : outcome supp (draws ds) r ->
  (exists e d, r = Err e /\ In d ds /\ outcome supp d (Err e)) \/
  (exists l, r = Ok l /\ length l = length ds /\
     forall i dd da, (i < length ds)%nat -> outcome supp (nth i ds dd) (Ok (nth i l da))).
Proof.
  revert r; induction ds as [|d ds IH]; cbn [draws]; intros r H.
  - apply outcome_ret_inv in H. right. exists []. subst. split; auto. split; auto. simpl. intros; lia.
  - apply outcome_bind in H as [(e & H1 & ->)|(a & H1 & H2)].
    + left. exists e, d. simpl. auto.
    + apply outcome_bind in H2 as [(e & H2 & ->)|(l & H2 & H3)].
      * destruct (IH _ H2) as [(e' & d' & E & Hin & Hd)|(l & E & _)]; [|discriminate].
        left. exists e', d'. simpl. auto.
      * destruct (IH _ H2) as [(e' & d' & E & _)|(l' & E & Hl & Hi)]; [discriminate|].
        inversion E; subst l'. apply outcome_ret_inv in H3. right. exists (a :: l). split; auto.
        split; [simpl; congruence|]. intros [|i] dd da Hlt; simpl; auto. apply Hi. simpl in Hlt; lia.
Qed.

Lemma outcome_draw_fun (supp : list nat -> V -> Prop) {A} (dflt : A) s : forall (d : list nat -> M V A) r,
  outcome supp (draw_fun dflt s d) r ->
  (exists e idx, r = Err e /\ inb s idx /\ outcome supp (d idx) (Err e)) \/
  (exists g, r = Ok g /\ forall idx, inb s idx -> outcome supp (d idx) (Ok (g idx))).
Proof.
  induction s as [|n s IH]; intros d r H; cbn [draw_fun] in H.
  - apply outcome_bind in H as [(e & H1 & ->)|(a & H1 & H2)].
    + left. exists e, []. simpl. auto.
    + apply outcome_ret_inv in H2. right. eexists. split; [exact H2|]. intros [|i idx]; simpl; tauto.
  - apply outcome_bind in H as [(e & H1 & ->)|(fs & H1 & H2)].
    + apply outcome_draws in H1 as [(e' & d' & E & Hin & Hd)|(l & E & _)]; [|discriminate].
      inversion E; subst e'. apply in_map_iff in Hin as (i & <- & Hi). apply in_seq0 in Hi.
      apply IH in Hd as [(e2 & idx & E2 & Hb & Hd)|(g & E2 & _)]; [|discriminate].
      inversion E2; subst e2. left. exists e, (i :: idx). simpl. auto.
    + apply outcome_ret_inv in H2. right. eexists. split; [exact H2|].
      apply outcome_draws in H1 as [(e' & d' & E & _)|(l & E & Hl & Hi)]; [discriminate|].
      inversion E; subst l. rewrite map_length, seq_length in *.
      intros [|i idx]; simpl; [tauto|]. intros [Hin Hb].
      specialize (Hi i (Fail GenericExc) (fun _ => dflt) Hin). rewrite nth_map_seq in Hi by auto.
      apply IH in Hi as [(e2 & idx' & E2 & _)|(g & E2 & Hg)]; [discriminate|]. inversion E2; subst g. auto.
Qed.
Lemma outcome_draw_tensor (supp : list nat -> V -> Prop) {A} (dflt : A) s (d : list nat -> M V A) r :
  outcome supp (draw_tensor dflt s d) r ->
  (exists e idx, r = Err e /\ inb s idx /\ outcome supp (d idx) (Err e)) \/
  (exists t, r = Ok t /\ shape t = s /\ forall idx, inb s idx -> outcome supp (d idx) (Ok (get t idx))).
Proof.
  unfold draw_tensor. intros H. apply outcome_bind in H as [(e & H1 & ->)|(g & H1 & H2)].
  - apply outcome_draw_fun in H1 as [(e' & idx & E & Hb & Hd)|(g & E & _)]; [|discriminate].
    inversion E; subst e'. left. exists e, idx. auto.
  - apply outcome_ret_inv in H2. apply outcome_draw_fun in H1 as [(e & idx & E & _)|(g' & E & Hg)]; [discriminate|].
    inversion E; subst g'. right. eexists. split; [exact H2|]. split; auto.
Qed.

Variable EL : list nat -> (V -> R) -> R.
Hypothesis HEL : leaf_expectation EL.
(** Two test functions that agree on all outcomes have the same expectation. *)
Lemma expect_ext_outcome {A} (m : M V A) g h :
  (forall a, outcome (fun _ _ => True) m (Ok a) -> g a = h a) -> expect EL m g = expect EL m h.
Proof.
  induction m as [a|e|w k IH|key k IH]; simpl; intros H; auto.
  - apply H. constructor.
  - apply rsum_ext. intros i Hi. f_equal. apply IH. intros a Ha. apply H. eapply out_cat; eauto.
  - apply (EL_ext EL HEL). intros v. apply IH. intros a Ha. apply H. econstructor; eauto.
Qed.
End OutcomeFacts.
