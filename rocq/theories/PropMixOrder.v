(** C54: up to their order, the rows of one call of a mixture are independent draws from it. *)
From Coq Require Import List Arith Lia Bool ZArith Reals Lra Permutation.
Import ListNotations.
From Verif Require Import Base RSum Num Tensor Prob Layers Circuit Net RefFwd Leaf RefLeaf RefLeafS TypeChecks Einet RefNet RefEinet RefEinetS RefMpe Build RefBuild Spec RefSpec RefSpecS RefPack RefPost RefDensity Mixture RefMixture RefMixLaw PropMix PropMixLaw Ex.
Local Open Scope R_scope.
Local Arguments Nat.div : simpl never.
Local Arguments Nat.modulo : simpl never.
Local Arguments Nat.sub : simpl never.
Local Arguments Nat.mul : simpl never.
Local Arguments Nat.add : simpl never.

(** * All arrangements of a list *)
(** One element and the others, in every way. *)
Fixpoint takes {A} (l : list A) : list (A * list A) :=
  match l with [] => [] | x :: l => (x, l) :: map (fun '(y, r) => (y, x :: r)) (takes l) end.
Fixpoint arrange {A} (n : nat) (l : list A) : list (list A) :=
  match n with 0%nat => [[]] | S n => flat_map (fun '(x, r) => map (cons x) (arrange n r)) (takes l) end.
(** The n! arrangements of a list of n elements; equal elements at different places count as different. *)
Definition arrangements {A} (l : list A) : list (list A) := arrange (length l) l.

Lemma takes_perm {A} (l : list A) x r : In (x, r) (takes l) -> Permutation l (x :: r).
Proof.
  revert r. induction l as [|a l IH]; cbn [takes]; [contradiction|]. intros r [E|H].
  - injection E as <- <-. auto.
  - apply in_map_iff in H as ((y & q) & E & H). injection E as <- <-. rewrite (IH q H). apply perm_swap.
Qed.
Lemma takes_length {A} (l : list A) : length (takes l) = length l.
Proof. induction l; cbn [takes length]; auto. rewrite map_length. auto. Qed.
Lemma takes_split {A} (l1 l2 : list A) x : In (x, l1 ++ l2) (takes (l1 ++ x :: l2)).
Proof. induction l1 as [|a l1 IH]; cbn [takes app]; [left; auto|]. right. apply in_map_iff. exists (x, l1 ++ l2). auto. Qed.
(** The arrangements are the permutations. *)
Lemma arrangements_perm {A} (l p : list A) : In p (arrangements l) <-> Permutation l p.
Proof.
  unfold arrangements. split.
  - remember (length l) as n. revert l p Heqn. induction n as [|n IH]; intros l p Hn; cbn [arrange].
    + intros [<-|[]]. destruct l; [constructor|discriminate].
    + intros H. apply in_flat_map in H as ((x & r) & Ht & H). apply in_map_iff in H as (q & <- & H).
      pose proof (takes_perm l x r Ht) as P. rewrite P. constructor. apply IH; auto. apply Permutation_length in P. cbn in P. lia.
  - revert l. induction p as [|x p IH]; intros l P.
    + apply Permutation_sym, Permutation_nil in P. subst l. left; auto.
    + destruct (in_split x l) as (l1 & l2 & ->); [rewrite P; left; auto|].
      assert (P': Permutation (l1 ++ l2) p) by (symmetry in P; apply Permutation_cons_app_inv in P; symmetry; auto).
      rewrite app_length. cbn [length]. rewrite Nat.add_succ_r, <- app_length. cbn [arrange]. apply in_flat_map.
      exists (x, l1 ++ l2). split; [apply takes_split|]. apply in_map. apply IH. auto.
Qed.
Lemma arrangements_count {A} (l : list A) : length (arrangements l) = fact (length l).
Proof.
  unfold arrangements. remember (length l) as n. revert l Heqn. induction n as [|n IH]; intros l Hn; cbn [arrange]; [reflexivity|].
  assert (G: forall ts : list (A * list A), (forall t, In t ts -> length (snd t) = n) -> length (flat_map (fun '(x, r) => map (cons x) (arrange n r)) ts) = (length ts * fact n)%nat).
  { induction ts as [|[x r] ts IHt]; intros Hs; cbn [flat_map length]; [lia|]. rewrite app_length, map_length, IHt by (intros; apply Hs; right; auto).
    rewrite IH by (symmetry; apply (Hs (x, r)); left; auto). lia. }
  rewrite G.
  - rewrite takes_length, <- Hn. reflexivity.
  - intros (x & r) H. apply takes_perm, Permutation_length in H. cbn in *. lia.
Qed.

(** * Sums over all arrangements *)
Fixpoint line {A B} (phi : A -> B -> R) (cs : list A) (p : list B) : R :=
  match cs, p with c :: cs, h :: p => phi c h * line phi cs p | _, _ => 1 end.
Section Permanent.
Context {A B : Type}.
Variable phi : A -> B -> R.
Definition permanent (cs : list A) (hs : list B) : R := lsum (line phi cs) (arrange (length cs) hs).
Lemma lsum_flat {X Y} (f : Y -> R) (k : X -> list Y) l : lsum f (flat_map k l) = lsum (fun x => lsum f (k x)) l.
Proof. induction l; cbn [flat_map lsum]; auto. rewrite lsum_app, IHl. ring. Qed.
Lemma permanent_cons c cs hs : permanent (c :: cs) hs = lsum (fun t => phi c (fst t) * permanent cs (snd t)) (takes hs).
Proof.
  unfold permanent. cbn [length arrange]. rewrite lsum_flat. apply lsum_ext. intros [x r] _. cbn [fst snd]. rewrite lsum_map. cbn [line]. apply lsum_scal_l.
Qed.
Definition twice (f : B -> B -> list B -> R) (hs : list B) : R :=
  lsum (fun t => lsum (fun u => f (fst t) (fst u) (snd u)) (takes (snd t))) (takes hs).
Lemma twice_cons f x hs : twice f (x :: hs) =
  lsum (fun u => f x (fst u) (snd u)) (takes hs) + (lsum (fun u => f (fst u) x (snd u)) (takes hs) + twice (fun a b r => f a b (x :: r)) hs).
Proof.
  unfold twice at 1. cbn [takes lsum fst snd]. f_equal. rewrite lsum_map. unfold twice. rewrite <- lsum_plus. apply lsum_ext. intros [y r] _.
  cbn [fst snd takes lsum]. rewrite lsum_map. f_equal. apply lsum_ext. intros [z q] _. reflexivity.
Qed.
Lemma takes_twice hs : forall f, twice f hs = twice (fun a b r => f b a r) hs.
Proof.
  induction hs as [|x hs IH]; intros f; [reflexivity|]. rewrite !twice_cons, (IH (fun a b r => f a b (x :: r))). ring.
Qed.
Lemma permanent_perm cs cs' : Permutation cs cs' -> forall hs, permanent cs hs = permanent cs' hs.
Proof.
  induction 1 as [|c cs cs' P IH|a b cs|cs1 cs2 cs3 P1 IH1 P2 IH2]; intros hs; auto.
  - rewrite !permanent_cons. apply lsum_ext. intros t _. rewrite IH. reflexivity.
  - rewrite !permanent_cons. 
    rewrite (lsum_ext _ (fun t => lsum (fun u => phi b (fst t) * (phi a (fst u) * permanent cs (snd u))) (takes (snd t)))).
    2: { intros t _. rewrite permanent_cons, <- lsum_scal_l. reflexivity. }
    change (twice (fun h h' r => phi b h * (phi a h' * permanent cs r)) hs = lsum (fun t => phi a (fst t) * permanent (b :: cs) (snd t)) (takes hs)).
    rewrite takes_twice. unfold twice. apply lsum_ext. intros t _. rewrite permanent_cons, <- lsum_scal_l.
    apply lsum_ext. intros u _. ring.
  - rewrite IH1. auto.
Qed.
End Permanent.

(** * The rows of one call *)
(** Row [i] is tested by the i-th test. *)
Definition row_tests {V} (C F : nat) (hs : list (nat -> nat -> option V -> R)) (t : tensor (option V)) : R :=
  rprod (length hs) (fun i => rprod C (fun c => rprod F (fun f => nth i hs (fun _ _ _ => 1) c f (entry t i c f)))).
Lemma line_rprod {A B} (phi : A -> B -> R) cs hs a0 b0 : length cs = length hs -> rprod (length hs) (fun i => phi (nth i cs a0) (nth i hs b0)) = line phi cs hs.
Proof.
  revert hs. induction cs as [|c cs IH]; intros [|h hs] E; try discriminate; [reflexivity|]. cbn [length line]. injection E as E. rewrite <- (IH hs E).
  unfold rprod. cbn [seq lprod]. f_equal. rewrite <- seq_shift, lprod_map. reflexivity.
Qed.
Lemma clusters_add {V} (EL : list nat -> (V -> R) -> R) nc ws n : leaf_expectation EL -> forall P Q : list nat -> R,
  expect EL (mix_clusters nc ws n None false) P + expect EL (mix_clusters nc ws n None false) Q =
  expect EL (mix_clusters nc ws n None false) (fun cs => P cs + Q cs).
Proof.
  intros HEL. unfold mix_clusters. induction n as [|n IH]; cbn [repeat draws]; intros P Q; [reflexivity|].
  rewrite !expect_bind by auto. cbn [expect]. rewrite <- rsum_plus. apply rsum_ext. intros i _. rewrite <- Rmult_plus_distr_l. f_equal.
  rewrite !expect_bind by auto. cbn [expect]. apply IH.
Qed.
Lemma clusters_plus {V} (EL : list nat -> (V -> R) -> R) nc ws n : leaf_expectation EL -> forall X (Phi : X -> list nat -> R) l,
  lsum (fun x => expect EL (mix_clusters nc ws n None false) (Phi x)) l = expect EL (mix_clusters nc ws n None false) (fun cs => lsum (fun x => Phi x cs) l).
Proof.
  intros HEL X Phi l. induction l as [|x l IH]; cbn [lsum].
  - rewrite (expect_ext EL HEL _ _ (fun _ => 0 * 0)) by (intros; ring). rewrite (expect_scal EL HEL _ 0 (fun _ => 0)). ring.
  - rewrite IH. apply clusters_add. auto.
Qed.
(** Tests of the single draws. *)
Lemma clusters_line {V} (EL : list nat -> (V -> R) -> R) nc ws B (phi : nat -> B -> R) hs : leaf_expectation EL -> weights_ok ws ->
  expect EL (mix_clusters nc ws (length hs) None false) (fun cs => line phi cs hs) =
  lprod (fun h => rsum (length ws) (fun k => nth k ws 0 / lsum (fun w => w) ws * phi k h)) hs.
Proof.
  intros HEL HW. unfold mix_clusters. induction hs as [|h hs IH]; cbn [length repeat draws lprod]; [reflexivity|].
  rewrite expect_bind by auto. cbn [expect]. rewrite map_length, <- IH, <- rsum_scal_r. apply rsum_ext. intros i Hi.
  rewrite weight_prob by auto. rewrite Rmult_assoc. f_equal. rewrite expect_bind by auto. cbn [expect line]. apply expect_scal. auto.
Qed.

(** sample(num_samples=n), any leaves: the mean over all orders of the rows of the expected value of different tests of
    the rows is that of n independent draws from the weighted components. *)
Theorem C54_unordered : forall V nc g os (Es : list (einet V)) ws predict cl T ms (EL : list nat -> (V -> R) -> R) (hs : list (nat -> nat -> option V -> R)),
  mixture_of nc g os Es -> (forall E, In E Es -> lf_ctx (leafE E) = true) -> (length ws <= length Es)%nat -> weights_ok ws ->
  (0 < length hs)%nat -> class_fits g cl -> T <> 0 -> leaf_expectation EL ->
  lsum (fun p => expect EL (mix_sample Es ws predict (mkMArgs (Some (length hs)) None cl None false false T ms)) (row_tests (nval (g_C g)) (nval (g_F g)) p)) (arrangements hs) =
  INR (fact (length hs)) * lprod (fun h => rsum (length Es) (fun k => share ws k *
    match nth_error Es k with
    | Some E => expect (fun key => EL (k :: key)) (sample E (mkArgs (Some 1%nat) cl None false false T ms)) (rows_test 1 (nval (g_C g)) (nval (g_F g)) h)
    | None => 0
    end)) hs.
Proof.
  intros V nc g os Es ws predict cl T ms EL hs HM Hctx Hl HW Hn Hcl HT HEL. destruct (mixture_components _ _ _ _ HM) as (_ & Hpos & HA).
  set (n := length hs) in *. set (phi := fun c h => comp_free g Es EL cl T ms c h).
  transitivity (lsum (fun p => expect EL (mix_clusters (length Es) ws n None false) (fun cs => line phi (map (source cs) (seq 0 n)) p)) (arrangements hs)).
  - apply lsum_ext. intros p Hp. apply arrangements_perm, Permutation_length in Hp. fold n in Hp.
    unfold mix_sample. cbn [m_n m_per m_ev m_class m_mpe m_mpel m_tsum m_ms is_none orb assert lift mbind]. rewrite expect_bind by auto.
    apply expect_ext_outcome; auto. intros cs Hcs. destruct (clusters_outcome _ _ _ _ _ _ _ Hcs) as (cs' & X & H1 & H2). assert (cs' = cs) by congruence. subst cs'. cbn in H2.
    assert (Hcs0: cs <> []) by (intros Z; rewrite Z in H2; cbn in H2; lia).
    rewrite <- (line_rprod phi _ p (source cs 0) (fun _ _ _ => 1)) by (rewrite map_length, seq_length; auto).
    assert (Lp: length p = length cs) by lia. unfold row_tests. rewrite Lp.
    etransitivity; [exact (mix_free_law g Es HA Hctx EL HEL cs cl T ms Hcs0 (H1 ltac:(pose proof (weights_ne ws HW); lia)) Hcl HT (fun i => nth i p (fun _ _ _ => 1)))|].
    cbv [rtest]. rewrite Lp. apply rprod_ext. intros i Hi. rewrite (map_nth (source cs)), seq_nth by lia. reflexivity.
  - rewrite clusters_plus by auto.
    transitivity (expect EL (mix_clusters (length Es) ws n None false) (fun cs => lsum (fun p => line phi cs p) (arrangements hs))).
    + apply expect_ext_outcome; auto. intros cs Hcs. destruct (clusters_outcome _ _ _ _ _ _ _ Hcs) as (cs' & X & H1 & H2). assert (cs' = cs) by congruence. subst cs'. cbn in H2.
      assert (Hcs0: cs <> []) by (intros Z; rewrite Z in H2; cbn in H2; lia).
      assert (P: Permutation (map (source cs) (seq 0 n)) cs).
      { rewrite <- H2. unfold source. destruct (permutation_of_any cs Hcs0) as (perm & Ep & Pp). rewrite Ep.
        assert (LC: length (comps (separate 0 cs [])) = length cs) by (apply Permutation_length, comps_perm).
        apply Permutation_trans with (comps (separate 0 cs [])); [|apply comps_perm].
        rewrite <- (map_map (fun i => nth i perm 0%nat) (fun j => nth j (comps (separate 0 cs [])) 0%nat)).
        assert (Q: map (fun i => nth i perm 0%nat) (seq 0 (length cs)) = perm).
        { rewrite <- (seq_length (length cs) 0), <- (Permutation_length Pp). apply map_nth_seq. }
        rewrite Q. rewrite <- (map_nth_seq (comps (separate 0 cs []))) at 1. rewrite LC. apply Permutation_map. exact Pp. }
      pose proof (permanent_perm phi _ _ P hs) as Q. unfold permanent in Q. rewrite (Permutation_length P), H2 in Q. exact Q.
    + rewrite <- clusters_plus by auto.
      set (m := fun h => rsum (length ws) (fun k => nth k ws 0 / lsum (fun w => w) ws * phi k h)).
      rewrite (lsum_ext _ (fun _ => lprod m hs)).
      * rewrite lsum_const, arrangements_count. f_equal. apply lprod_ext. intros h _. unfold m. rewrite (shares_pad ws (length Es)) by lia.
        apply rsum_ext. intros k Hk. unfold share. f_equal. unfold phi, comp_free.
        destruct (nth_error Es k) as [E|] eqn:En; [|apply nth_error_None in En; lia]. apply expect_ext; [apply (ELc_ok EL k HEL)|]. intros t.
        unfold rows_test, row_value. rewrite rprod_S, rprod_0. ring.
      * intros p Hp. apply arrangements_perm in Hp. rewrite (lprod_perm m _ _ Hp). assert (Ln: n = length p) by exact (Permutation_length Hp). rewrite Ln. apply (clusters_line EL (length Es) ws _ phi p); auto.
Qed.
Print Assumptions C54_unordered.

(** * Discrete leaves *)
Lemma takes_map {A B} (f : A -> B) l : takes (map f l) = map (fun '(y, r) => (f y, map f r)) (takes l).
Proof.
  induction l as [|a l IH]; cbn [takes map]; [reflexivity|]. rewrite IH, !map_map. f_equal. apply map_ext. intros [y r]. reflexivity.
Qed.
Lemma arrange_map {A B} (f : A -> B) n l : arrange n (map f l) = map (map f) (arrange n l).
Proof.
  revert l. induction n as [|n IH]; intros l; cbn [arrange]; [reflexivity|]. rewrite takes_map. generalize (takes l). intros q.
  induction q as [|[y r] q IQ]; cbn [map flat_map]; [reflexivity|]. rewrite IQ, map_app, IH, !map_map. reflexivity.
Qed.

(** The mean over all orders of the probability that the rows are exactly given points, in that order, is the product of
    their likelihoods under the mixture. *)
Theorem C54_unordered_likelihood_partial : forall nc g os (Es : list (einet nat)) B ws predict cl y (xs : list (nat -> nat -> nat)),
  mixture_of nc g os Es -> consistent g -> (forall E, In E Es -> discrete_leaf B (leafE E) /\ lf_ctx (leafE E) = true) -> (length ws <= length Es)%nat -> weights_ok ws ->
  (0 < length xs)%nat -> picks g cl y -> (forall x c f, In x xs -> (c < nval (g_C g))%nat -> (f < nval (g_F g))%nat -> (x c f < B)%nat) ->
  lsum (fun p => PrMix B Es (mix_sample Es ws predict (mkMArgs (Some (length xs)) None cl None false false 1 None))
    (rows_are (length xs) (nval (g_C g)) (nval (g_F g)) (fun n => nth n p (fun _ _ => 0%nat)))) (arrangements xs) =
  INR (fact (length xs)) * lprod (fun x => rsum (length Es) (fun k => share ws k * lik_at Es k (one_row (nval (g_C g)) (nval (g_F g)) x) None 0 y)) xs.
Proof.
  intros nc g os Es B ws predict cl y xs HM Hco HE Hl HW Hn Hp Hx. destruct (mixture_components _ _ _ _ HM) as (_ & Hpos & HA).
  assert (HELm := mix_EL_ok g Es B HA (fun E H => proj1 (HE E H)) Hpos).
  assert (Hcl: class_fits g cl) by (destruct Hp as [(-> & _)|(-> & H1 & H2)]; [exact I|split; auto]).
  set (T := fun (x : nat -> nat -> nat) (c f : nat) (v : option nat) => eqv v (x c f)).
  pose proof (C54_unordered nat nc g os Es ws predict cl 1 None _ (map T xs) HM (fun E H => proj2 (HE E H)) Hl HW ltac:(rewrite map_length; exact Hn) Hcl R1_neq_R0 HELm) as H.
  rewrite map_length, lprod_map in H. unfold arrangements in H |- *. rewrite map_length, arrange_map, lsum_map in H. etransitivity; [|etransitivity; [exact H|]].
  - apply lsum_ext. intros p Hp'. apply arrangements_perm, Permutation_length in Hp'. unfold PrMix. apply expect_ext; auto. intros t.
    rewrite rows_are_rprod. unfold row_tests. rewrite map_length, <- Hp'. apply rprod_ext. intros n Hn'. apply rprod_ext. intros c _. apply rprod_ext. intros f _.
    rewrite (nth_indep (map T p) _ (T (fun _ _ => 0%nat))) by (rewrite map_length; lia). rewrite map_nth. reflexivity.
  - f_equal. apply lprod_ext. intros x Hx'. apply rsum_ext. intros k Hk. f_equal.
    rewrite <- (comp_free_lik g Es B HA (fun E H => proj1 (HE E H)) (fun E H => proj2 (HE E H)) Hpos k cl y x Hk Hco Hp) by (intros; apply Hx; auto).
    unfold comp_free. destruct (nth_error Es k) as [E|] eqn:En; [|apply nth_error_None in En; lia].
    apply expect_ext; [exact (ELc_ok _ k HELm)|]. intros t. unfold rows_test, row_value. rewrite rprod_S, rprod_0. unfold T. ring.
Qed.
Print Assumptions C54_unordered_likelihood_partial.

(** Two different rows, weights 1 and 3: the two orders together. *)
Example C54_unordered_ex : exists nc g os (Es : list (einet nat)), mixture_of nc g os Es /\ length Es = 2%nat /\
  let x := (fun _ f => f mod 2)%nat in let x' := (fun _ f => (f + 1) mod 2)%nat in
  let P := fun a b => PrMix 2 Es (mix_sample Es [1; 3] (fun _ _ => []) (mkMArgs (Some 2%nat) None CNone None false false 1 None)) (rows_are 2 1 5 (fun n => nth n [a; b] (fun _ _ => 0%nat))) in
  let L := fun a => 1 / 4 * lik_at Es 0 (one_row 1 5 a) None 0 0 + 3 / 4 * lik_at Es 1 (one_row 1 5 a) None 0 0 in
  P x x' + P x' x = 2 * (L x * L x').
Proof.
  destruct ex_parts as (E1 & E2 & HM & HE & _). exists (VInt 2), ex_bu_g, [ex_o third; ex_o quarter], [E1; E2]. split; [exact HM|]. split; [reflexivity|]. cbv zeta.
  pose proof (C54_unordered_likelihood_partial (VInt 2) ex_bu_g _ [E1; E2] 2 [1; 3] (fun _ _ => []) CNone 0 [(fun _ f => f mod 2)%nat; (fun _ f => (f + 1) mod 2)%nat]
    HM I HE (le_n 2) uneven_ok ltac:(cbn; lia)) as H.
  change (nval (g_C ex_bu_g)) with 1%nat in H. change (nval (g_F ex_bu_g)) with 5%nat in H. cbn [length] in H.
  assert (H': forall a b : nat -> nat -> nat, arrangements [a; b] = [[a; b]; [b; a]]) by (intros; reflexivity). rewrite H' in H. cbn [lsum lprod] in H.
  rewrite Rplus_0_r in H. etransitivity; [apply H|]; clear H.
  - left. repeat split.
  - intros x c f [<-|[<-|[]]] _ _; apply Nat.mod_upper_bound; lia.
  - change (INR (fact 2)) with 2. rewrite !rsum_S, !rsum_0. unfold share. cbn [nth lsum]. field.
Qed.
