(** The mean of a function of uniform numbers (a Darboux integral over the unit cube), and its values for functions that are constant on
    the parts of a partition into sets with a content. *)
From Coq Require Import List Arith Lia Bool Reals Lra.
Import ListNotations.
From Verif Require Import RSum Density Gauss Integral Content.
Local Open Scope R_scope.

(** A step function: weighted boxes.  [mean I h v]: [h] lies between two step functions on the cube whose integrals are as close to
    [v] as desired. *)
Definition steps (I : list entry_of) (l : list (R * box)) (u : entry_of -> R) : R := lsum (fun p => fst p * ind_box I (snd p) u) l.
Definition mass (I : list entry_of) (l : list (R * box)) : R := lsum (fun p => fst p * volume I (snd p)) l.
Definition within (I : list entry_of) (l : list (R * box)) : Prop :=
  Forall (fun p => proper I (snd p) /\ forall u, inside I (snd p) u -> cube I u) l.
Definition mean (I : list entry_of) (h : (entry_of -> R) -> R) (v : R) : Prop :=
  forall d, 0 < d -> exists lo hi, within I lo /\ within I hi /\
    (forall u, cube I u -> steps I lo u <= h u <= steps I hi u) /\ mass I hi - d <= v <= mass I lo + d.

Definition scaled (c : R) (l : list (R * box)) : list (R * box) := map (fun p => (c * fst p, snd p)) l.
Lemma steps_scaled I c l u : steps I (scaled c l) u = c * steps I l u.
Proof. unfold steps, scaled. rewrite lsum_map, <- lsum_scal_l. apply lsum_ext. intros; cbn [fst snd]; ring. Qed.
Lemma mass_scaled I c l : mass I (scaled c l) = c * mass I l.
Proof. unfold mass, scaled. rewrite lsum_map, <- lsum_scal_l. apply lsum_ext. intros; cbn [fst snd]; ring. Qed.
Lemma within_scaled I c l : within I l -> within I (scaled c l).
Proof. intros H. apply Forall_forall. intros p Hp. apply in_map_iff in Hp as (q & <- & Hq). unfold within in H. rewrite Forall_forall in H. apply (H q Hq). Qed.
Lemma steps_app I l m u : steps I (l ++ m) u = steps I l u + steps I m u.
Proof. apply lsum_app. Qed.
Lemma mass_app I l m : mass I (l ++ m) = mass I l + mass I m.
Proof. apply lsum_app. Qed.
Lemma within_app I l m : within I l -> within I m -> within I (l ++ m).
Proof. intros. apply Forall_app. auto. Qed.
Lemma steps_off I l u : within I l -> ~ cube I u -> steps I l u = 0.
Proof.
  intros H Hu. unfold steps. rewrite (lsum_ext _ (fun _ => 0)); [apply lsum_zero|]. intros p Hp. unfold within in H. rewrite Forall_forall in H. destruct (H p Hp) as [_ Hc].
  destruct (ind_dec I (snd p) u) as [C|[_ ->]]; [contradiction (Hu (Hc u C))|ring].
Qed.
Lemma cube_dec I u : cube I u \/ ~ cube I u.
Proof. destruct (ind_dec I (fun _ => (0, 1)) u) as [H|[H _]]; [left; exact H|right; exact H]. Qed.
Theorem mean_unique I h v w : NoDup I -> mean I h v -> mean I h w -> v = w.
Proof.
  intros HN. assert (L: forall v w, mean I h v -> mean I h w -> v <= w).
  { intros a b Ha Hb. apply Rnot_lt_le. intros H. destruct (Ha ((a - b) / 4) ltac:(lra)) as (lo & hi0 & W1 & _ & S1 & M1). destruct (Hb ((a - b) / 4) ltac:(lra)) as (lo0 & hi & _ & W2 & S2 & M2).
    pose proof (weighted_nonneg I HN (hi ++ scaled (-1) lo)) as W. fold (mass I (hi ++ scaled (-1) lo)) in W. rewrite mass_app, mass_scaled in W.
    assert (0 <= mass I hi + -1 * mass I lo); [|lra]. apply W.
    - pose proof (within_app I hi _ W2 (within_scaled I (-1) lo W1)) as W3. eapply Forall_impl; [|exact W3]. intros p [Hp _]. exact Hp.
    - intros u. fold (steps I (hi ++ scaled (-1) lo) u). rewrite steps_app, steps_scaled. destruct (cube_dec I u) as [C|C].
      + specialize (S1 u C). specialize (S2 u C). lra.
      + rewrite !steps_off by auto. lra. }
  intros Ha Hb. apply Rle_antisym; apply L; auto.
Qed.

(** * Functions that are constant on parts *)
Record part : Type := mkPart { p_set : (entry_of -> R) -> Prop; p_pr : R; p_val : R }.
Definition partition (I : list entry_of) (cs : list part) : Prop :=
  ForallOrdPairs (fun x y => forall u, cube I u -> p_set x u -> p_set y u -> False) cs /\
  (forall u, cube I u -> exists x, In x cs /\ p_set x u) /\ Forall (fun x => content I (p_set x) (p_pr x)) cs.
Lemma inner_le I A v i : NoDup I -> content I A v -> Forall (proper I) i -> disjoint I i -> (forall b u, In b i -> inside I b u -> cube I u /\ A u) -> total I i <= v.
Proof.
  intros HN HA P D C. apply Rnot_lt_le. intros H. destruct (HA ((total I i - v) / 2) ltac:(lra)) as (i0 & o & _ & Po & _ & _ & Co & _ & To).
  assert (total I i <= total I o); [|lra]. apply inner_outer; auto. intros b u Hb Hu. destruct (C b u Hb Hu). apply Co; auto.
Qed.
Lemma parts_fill I (c : part -> R) d cs : NoDup I -> 0 < d -> (forall x, In x cs -> 0 <= c x) ->
  ForallOrdPairs (fun x y => forall u, cube I u -> p_set x u -> p_set y u -> False) cs -> Forall (fun x => content I (p_set x) (p_pr x)) cs ->
  exists l, within I l /\ (forall u, cube I u -> (forall x, In x cs -> p_set x u -> False) -> steps I l u = 0) /\
    (forall u x, cube I u -> In x cs -> p_set x u -> steps I l u <= c x) /\ lsum (fun x => c x * (p_pr x - d)) cs <= mass I l.
Proof.
  intros HN Hd. induction cs as [|x cs IH]; intros Hc HD HC.
  - exists []. unfold steps, mass. cbn [lsum]. split; [constructor|]. split; [auto|]. split; [intros u x _ []|lra].
  - inversion HD as [|? ? Dx Dc]; subst. inversion HC as [|? ? Cx Cc]; subst. destruct (IH (fun y Hy => Hc y (or_intror Hy)) Dc Cc) as (l & W & Z & S & M).
    destruct (Cx d Hd) as (inn & oo & P & _ & Dj & Ci & _ & T & _). pose proof (Hc x (or_introl eq_refl)) as Hx.
    set (m := map (fun b => (c x, b)) inn).
    assert (Sm: forall u, steps I m u = c x * lsum (fun b => ind_box I b u) inn) by (intros u; unfold steps, m; rewrite lsum_map, <- lsum_scal_l; reflexivity).
    assert (Inn: forall u, lsum (fun b => ind_box I b u) inn = 0 \/ ((exists b, In b inn /\ inside I b u) /\ lsum (fun b => ind_box I b u) inn = 1)).
    { intros u. clear - Dj. induction inn as [|b inn IH]; [left; reflexivity|]. inversion Dj as [|? ? Hb Hd']; subst. specialize (IH Hd').
      change (lsum (fun b => ind_box I b u) (b :: inn)) with (ind_box I b u + lsum (fun b => ind_box I b u) inn).
      destruct (ind_dec I b u) as [Hin|[Hin E]].
      - right. split; [exists b; split; [left; reflexivity|auto]|]. rewrite ind_in by auto.
        replace (lsum (fun b => ind_box I b u) inn) with 0; [ring|]. symmetry. rewrite (lsum_ext _ (fun _ => 0)); [apply lsum_zero|].
        intros c Hc. destruct (ind_dec I c u) as [Hcu|[_ E]]; auto. exfalso. rewrite Forall_forall in Hb. apply (Hb c Hc u); auto.
      - rewrite E. destruct IH as [IH|((c & Hc & Hcu) & IH)]; [left; lra|right]. split; [exists c; split; [right; auto|auto]|lra]. }
    exists (m ++ l). split; [|split; [|split]].
    + apply within_app; auto. apply Forall_forall. intros p Hp. apply in_map_iff in Hp as (b & <- & Hb). cbn [snd]. rewrite Forall_forall in P. split; auto. intros u Hu. apply (Ci b u Hb Hu).
    + intros u Hu Hno. rewrite steps_app, Sm, (Z u Hu) by (intros y Hy; apply Hno; right; auto).
      destruct (Inn u) as [->|[(b & Hb & Hi) _]]; [ring|]. exfalso. apply (Hno x (or_introl eq_refl)). apply (Ci b u Hb Hi).
    + intros u y Hu Hy HyS. rewrite steps_app, Sm. rewrite Forall_forall in Dx. destruct Hy as [<-|Hy].
      * rewrite (Z u Hu) by (intros z Hz HzS; apply (Dx z Hz u Hu); auto). destruct (Inn u) as [->|[_ ->]]; lra.
      * specialize (S u y Hu Hy HyS). destruct (Inn u) as [->|[(b & Hb & Hi) _]]; [lra|]. exfalso. apply (Dx y Hy u Hu); auto. apply (Ci b u Hb Hi).
    + rewrite mass_app. change (lsum (fun x => c x * (p_pr x - d)) (x :: cs)) with (c x * (p_pr x - d) + lsum (fun x => c x * (p_pr x - d)) cs).
      assert (Em: mass I m = c x * total I inn) by (unfold mass, m, total; rewrite lsum_map, <- lsum_scal_l; reflexivity). rewrite Em.
      assert (c x * (p_pr x - d) <= c x * total I inn) by (apply Rmult_le_compat_l; lra). lra.
Qed.
Theorem partition_one I cs : NoDup I -> partition I cs -> lsum p_pr cs = 1.
Proof.
  intros HN (HD & HC & HA). assert (G: content I (fun u => exists x, In x cs /\ p_set x u) (lsum p_pr cs)).
  { clear HC. induction cs as [|x cs IH].
    - apply content_ext with (A := fun _ => False); [|apply content_none]. intros u _. split; [contradiction|]. intros (x & [] & _).
    - inversion HD as [|? ? Dx Dc]; subst. inversion HA as [|? ? Cx Cc]; subst. rewrite Forall_forall in Dx.
      apply content_ext with (A := fun u => p_set x u \/ exists y, In y cs /\ p_set y u).
      + intros u _. split; [intros [H|(y & Hy & H)]; [exists x; split; [left; auto|auto]|exists y; split; [right; auto|auto]]|]. intros (y & [<-|Hy] & H); [left; auto|right; eauto].
      + cbn [lsum]. apply content_or; auto. intros u Hu H1 (y & Hy & H2). eapply Dx; eauto. }
  apply (content_unique I (fun _ => True)); auto; [|apply content_cube]. eapply content_ext; [|exact G]. intros u Hu. split; auto.
Qed.
Theorem mean_parts I cs h : NoDup I -> partition I cs -> (forall u x, cube I u -> In x cs -> p_set x u -> h u = p_val x) ->
  mean I h (lsum (fun x => p_pr x * p_val x) cs).
Proof.
  intros HN HP Hh d Hd. pose proof (partition_one I cs HN HP) as One. destruct HP as (HD & HC & HA).
  set (B := lsum (fun x => Rabs (p_val x)) cs). assert (HB: forall x, In x cs -> - B <= p_val x <= B).
  { intros x Hx. assert (Rabs (p_val x) <= B) by (apply (lsum_term_le (fun x => Rabs (p_val x))); auto; intros; apply Rabs_pos). revert H. unfold Rabs. destruct (Rcase_abs _); lra. }
  assert (B0: 0 <= B) by (apply lsum_nonneg; intros; apply Rabs_pos).
  set (n := INR (length cs)). assert (Hn: 0 <= n) by apply pos_INR. set (d' := d / (2 * B * n + 1)). assert (Den: 0 < 2 * B * n + 1) by (assert (0 <= B * n) by (apply Rmult_le_pos; auto); lra).
  assert (Hd': 0 < d') by (apply Rdiv_lt_0_compat; auto).
  assert (Hsmall: 2 * B * n * d' <= d). { unfold d'. apply (Rmult_le_reg_r (2 * B * n + 1)); auto. replace (2 * B * n * (d / (2 * B * n + 1)) * (2 * B * n + 1)) with (2 * B * n * d) by (field; lra). lra. }
  assert (Cb: within I [(1, fun _ => (0, 1))] /\ (forall u, cube I u -> steps I [(1, fun _ => (0, 1))] u = 1) /\ mass I [(1, fun _ => (0, 1))] = 1).
  { split; [|split].
    - constructor; [|constructor]. cbn [snd]. split; [intros i _; cbn [fst snd]; lra|]. intros u Hu. exact Hu.
    - intros u Hu. unfold steps. cbn [lsum fst snd]. rewrite ind_in by exact Hu. ring.
    - unfold mass. cbn [lsum fst snd]. unfold volume. cbn [fst snd]. rewrite (lprod_ext _ (fun _ => 1)), lprod_one by (intros; ring). ring. }
  destruct Cb as (Wc & Sc & Mc). set (cb := [(1, fun _ : entry_of => (0, 1))]) in *.
  destruct (parts_fill I (fun x => p_val x + B) d' cs HN Hd') as (l1 & W1 & _ & S1 & M1); auto. { intros x Hx. specialize (HB x Hx). lra. }
  destruct (parts_fill I (fun x => B - p_val x) d' cs HN Hd') as (l2 & W2 & _ & S2 & M2); auto. { intros x Hx. specialize (HB x Hx). lra. }
  assert (Sum: forall c : part -> R, (forall x, In x cs -> 0 <= c x <= 2 * B) -> lsum (fun x => c x * p_pr x) cs - d <= lsum (fun x => c x * (p_pr x - d')) cs).
  { intros c Hc. rewrite (lsum_ext (fun x => c x * (p_pr x - d')) (fun x => c x * p_pr x + (- d') * c x)) by (intros; ring). rewrite lsum_plus, lsum_scal_l.
    assert (lsum c cs <= 2 * B * n). { apply Rle_trans with (lsum (fun _ => 2 * B) cs); [apply lsum_le; intros; apply Hc; auto|]. rewrite lsum_const. unfold n. lra. }
    assert (d' * lsum c cs <= d' * (2 * B * n)) by (apply Rmult_le_compat_l; lra). lra. }
  exists (scaled (- B) cb ++ l1), (scaled B cb ++ scaled (-1) l2). split; [apply within_app; auto; apply within_scaled; auto|]. split; [apply within_app; apply within_scaled; auto|]. split.
  - intros u Hu. destruct (HC u Hu) as (x & Hx & Hxu). rewrite (Hh u x Hu Hx Hxu), !steps_app, !steps_scaled, !Sc by auto. specialize (S1 u x Hu Hx Hxu). specialize (S2 u x Hu Hx Hxu). lra.
  - rewrite !mass_app, !mass_scaled, Mc.
    pose proof (Sum (fun x => p_val x + B) ltac:(intros x Hx; specialize (HB x Hx); lra)) as Q1. pose proof (Sum (fun x => B - p_val x) ltac:(intros x Hx; specialize (HB x Hx); lra)) as Q2.
    rewrite (lsum_ext (fun x => (p_val x + B) * p_pr x) (fun x => p_pr x * p_val x + B * p_pr x)) in Q1 by (intros; ring). rewrite lsum_plus, lsum_scal_l, One in Q1.
    rewrite (lsum_ext (fun x => (B - p_val x) * p_pr x) (fun x => (-1) * (p_pr x * p_val x) + B * p_pr x)) in Q2 by (intros; ring). rewrite lsum_plus, !lsum_scal_l, One in Q2. split; lra.
Qed.
