(** Content (Jordan measure) of sets of uniform numbers.
    The entries of a torch.rand tensor are independent and uniform on [0, 1), so a box of entries has the product of its side lengths as
    probability.  [content I A v]: the set [A] of values for the entries [I] can be filled by disjoint boxes and covered by boxes with
    total volumes as close to [v] as desired.  Every probability measure that gives boxes their volume gives [A] the probability [v]. *)
From Coq Require Import List Arith Lia Bool Reals Lra.
Import ListNotations.
From Verif Require Import RSum Density Gauss Integral.
Local Open Scope R_scope.

(** An entry of a tensor, a box: the lower and upper bound for every entry. *)
Definition entry_of := list nat.
Definition box := entry_of -> R * R.
Definition inside (I : list entry_of) (b : box) (u : entry_of -> R) : Prop := forall i, In i I -> fst (b i) <= u i < snd (b i).
Definition proper (I : list entry_of) (b : box) : Prop := forall i, In i I -> fst (b i) <= snd (b i).
Definition volume (I : list entry_of) (b : box) : R := lprod (fun i => snd (b i) - fst (b i)) I.
Definition total (I : list entry_of) (bs : list box) : R := lsum (volume I) bs.
Definition disjoint (I : list entry_of) : list box -> Prop := ForallOrdPairs (fun b c => forall u, inside I b u -> inside I c u -> False).
Definition cube (I : list entry_of) (u : entry_of -> R) : Prop := forall i, In i I -> 0 <= u i < 1.
Definition content (I : list entry_of) (A : (entry_of -> R) -> Prop) (v : R) : Prop :=
  forall d, 0 < d -> exists inn out,
    Forall (proper I) inn /\ Forall (proper I) out /\
    disjoint I inn /\ (forall b u, In b inn -> inside I b u -> cube I u /\ A u) /\
    (forall u, cube I u -> A u -> exists b, In b out /\ inside I b u) /\
    v - d <= total I inn /\ total I out <= v + d.

(** * Inner boxes have no more volume than a cover *)
Definition chi (lo hi x : R) : R := if Rle_dec lo x then if Rlt_dec x hi then 1 else 0 else 0.
Lemma chi_integral lo hi : lo <= hi -> improper (chi lo hi) (hi - lo).
Proof.
  intros H. assert (B: forall a b, a <= b -> improper (between a b) (b - a)).
  { intros a b Hab. apply (li_ext _ improper_linear (fun x => fct_cte 1 x * between a b x)); [intros; unfold fct_cte; ring|].
    apply (improper_box (fct_cte 1) (fun x => x)); auto.
    - apply continuity_const. intros x y. reflexivity.
    - intros x. unfold fct_cte. apply derivable_pt_lim_id. }
  replace (hi - lo) with ((hi - lo) + -1 * (hi - hi)) by ring.
  apply (li_ext _ improper_linear (fun x => between lo hi x + -1 * between hi hi x)).
  - intros x. unfold chi, between. destruct (Rle_dec lo x), (Rle_dec x hi), (Rle_dec hi x), (Rlt_dec x hi); lra.
  - apply (li_plus _ improper_linear); [apply B; auto|]. apply (li_scal _ improper_linear). apply B; lra.
Qed.
Definition ind_box (I : list entry_of) (b : box) (u : entry_of -> R) : R := lprod (fun i => chi (fst (b i)) (snd (b i)) (u i)) I.
Lemma chi_in lo hi x : lo <= x < hi -> chi lo hi x = 1.
Proof. intros H. unfold chi. destruct (Rle_dec lo x), (Rlt_dec x hi); lra. Qed.
Lemma chi_out lo hi x : ~ (lo <= x < hi) -> chi lo hi x = 0.
Proof. intros H. unfold chi. destruct (Rle_dec lo x), (Rlt_dec x hi); lra. Qed.
Lemma chi_nonneg lo hi x : 0 <= chi lo hi x.
Proof. unfold chi. destruct (Rle_dec lo x), (Rlt_dec x hi); lra. Qed.
Lemma ind_in I b u : inside I b u -> ind_box I b u = 1.
Proof. intros H. unfold ind_box. rewrite (lprod_ext _ (fun _ => 1)); [apply lprod_one|]. intros i Hi. apply chi_in. auto. Qed.
Lemma ind_nonneg I b u : 0 <= ind_box I b u.
Proof. apply lprod_nonneg. intros. apply chi_nonneg. Qed.
Lemma ind_dec I b u : inside I b u \/ (~ inside I b u /\ ind_box I b u = 0).
Proof.
  induction I as [|i I IH]; [left; intros j []|]. destruct IH as [IH|[IH E]].
  - assert (D: {fst (b i) <= u i < snd (b i)} + {~ (fst (b i) <= u i < snd (b i))}).
    { destruct (Rle_dec (fst (b i)) (u i)), (Rlt_dec (u i) (snd (b i))); [left; lra|right; lra|right; lra|right; lra]. }
    destruct D as [D|D].
    + left. intros j [<-|Hj]; auto.
    + right. split; [intros H; apply D, H; left; reflexivity|]. unfold ind_box. apply (lprod_zero _ _ i); [left; reflexivity|]. apply chi_out; auto.
  - right. split; [intros H; apply IH; intros j Hj; apply H; right; auto|].
    change (chi (fst (b i)) (snd (b i)) (u i) * ind_box I b u = 0). rewrite E. ring.
Qed.

Definition upd (u : entry_of -> R) (x : entry_of) (t : R) : entry_of -> R := fun i => if list_eq_dec Nat.eq_dec i x then t else u i.
Lemma upd_other I b u x t : ~ In x I -> ind_box I b (upd u x t) = ind_box I b u.
Proof.
  intros H. apply lprod_ext. intros i Hi. unfold upd. destruct (list_eq_dec Nat.eq_dec i x); [subst; contradiction|reflexivity].
Qed.
Lemma weighted_nonneg I : NoDup I -> forall l : list (R * box), Forall (fun p => proper I (snd p)) l ->
  (forall u, 0 <= lsum (fun p => fst p * ind_box I (snd p) u) l) -> 0 <= lsum (fun p => fst p * volume I (snd p)) l.
Proof.
  induction I as [|x I IH]; intros HN l Hl H.
  - specialize (H (fun _ => 0)). exact H.
  - inversion HN as [|? ? Hx HI]; subst. set (w := fun p : R * box => (fst p * (snd (snd p x) - fst (snd p x)), snd p)).
    assert (E: lsum (fun p => fst p * volume (x :: I) (snd p)) l = lsum (fun p => fst p * volume I (snd p)) (map w l)).
    { rewrite lsum_map. apply lsum_ext. intros [a b] _. unfold w. cbn [fst snd]. unfold volume. cbn [lprod map]. 
      change (a * ((snd (b x) - fst (b x)) * lprod (fun i => snd (b i) - fst (b i)) I) = a * (snd (b x) - fst (b x)) * lprod (fun i => snd (b i) - fst (b i)) I). ring. }
    rewrite E. apply IH; auto.
    + apply Forall_forall. intros p Hp. apply in_map_iff in Hp as (q & <- & Hq). rewrite Forall_forall in Hl. intros i Hi. apply (Hl q Hq). right; auto.
    + intros u. rewrite lsum_map. apply (li_pos _ improper_linear (fun t => lsum (fun p => fst p * ind_box (x :: I) (snd p) (upd u x t)) l)); [intros t; apply H|].
      clear H E IH. induction l as [|[a b] l IHl].
      * apply (li_ext _ improper_linear (fun t => 0 * chi 0 0 t)); [intros; unfold lsum; simpl; ring|]. 
        cbn [lsum map].
        assert (Z: improper (fun t => 0 * chi 0 0 t) (0 * (0 - 0))) by (apply (li_scal _ improper_linear); apply chi_integral; lra). rewrite Rmult_0_l in Z. exact Z.
      * inversion Hl as [|? ? Hb Hl']; subst. cbn [snd] in Hb.
        assert (S: forall (f : R * box -> R) p q, lsum f (p :: q) = f p + lsum f q) by reflexivity. rewrite S.
        apply (li_ext _ improper_linear (fun t => (a * ind_box I b u) * chi (fst (b x)) (snd (b x)) t + lsum (fun p => fst p * ind_box (x :: I) (snd p) (upd u x t)) l)).
        -- intros t. rewrite S. f_equal. cbn [fst snd]. unfold ind_box at 2. cbn [lprod map].
           change (a * ind_box I b u * chi (fst (b x)) (snd (b x)) t = a * (chi (fst (b x)) (snd (b x)) (upd u x t x) * ind_box I b (upd u x t))).
           rewrite upd_other by auto. unfold upd. destruct (list_eq_dec Nat.eq_dec x x); [ring|congruence].
        -- apply (li_plus _ improper_linear); [|apply IHl; auto]. unfold w. cbn [fst snd].
           replace (a * (snd (b x) - fst (b x)) * ind_box I b u) with (a * ind_box I b u * (snd (b x) - fst (b x))) by ring.
           apply (li_scal _ improper_linear). apply chi_integral. apply Hb. left; reflexivity.
Qed.
Lemma inner_outer I inn out : NoDup I -> Forall (proper I) inn -> Forall (proper I) out -> disjoint I inn ->
  (forall b u, In b inn -> inside I b u -> exists c, In c out /\ inside I c u) -> total I inn <= total I out.
Proof.
  intros HN Hi Ho Hd Hc.
  set (l := map (fun b => (1, b)) out ++ map (fun b => (-1, b)) inn).
  pose proof (weighted_nonneg I HN l) as W. unfold l in W. rewrite lsum_app, !lsum_map in W. cbn [fst snd] in W.
  rewrite (lsum_ext (fun b => 1 * volume I b) (volume I)) in W by (intros; ring). rewrite (lsum_scal_l (-1) (volume I) inn) in W.
  unfold total. enough (0 <= lsum (volume I) out + -1 * lsum (volume I) inn) by lra. apply W.
  - apply Forall_app. split; apply Forall_forall; intros p Hp; apply in_map_iff in Hp as (b & <- & Hb); cbn [snd].
    + rewrite Forall_forall in Ho. auto.
    + rewrite Forall_forall in Hi. auto.
  - intros u. rewrite lsum_app, !lsum_map. cbn [fst snd]. rewrite (lsum_ext (fun b => 1 * ind_box I b u) (fun b => ind_box I b u)) by (intros; ring).
    rewrite (lsum_scal_l (-1) (fun b => ind_box I b u) inn).
    assert (Pos: 0 <= lsum (fun b => ind_box I b u) out) by (apply lsum_nonneg; intros; apply ind_nonneg).
    assert (Cov: (exists b, In b inn /\ inside I b u) -> 1 <= lsum (fun b => ind_box I b u) out).
    { intros (b & Hb & Hu). destruct (Hc b u Hb Hu) as (c & Hcc & Hcu). rewrite <- (ind_in I c u Hcu). apply (lsum_term_le (fun b => ind_box I b u)); auto. intros; apply ind_nonneg. }
    assert (Inn: lsum (fun b => ind_box I b u) inn = 0 \/ ((exists b, In b inn /\ inside I b u) /\ lsum (fun b => ind_box I b u) inn = 1)).
    { clear - Hd. induction inn as [|b inn IH]; [left; reflexivity|]. inversion Hd as [|? ? Hb Hd']; subst. specialize (IH Hd').
      assert (S: lsum (fun b => ind_box I b u) (b :: inn) = ind_box I b u + lsum (fun b => ind_box I b u) inn) by reflexivity. rewrite S.
      destruct (ind_dec I b u) as [Hin|[Hin E]].
      - right. split; [exists b; split; [left; reflexivity|auto]|]. rewrite ind_in by auto.
        replace (lsum (fun b => ind_box I b u) inn) with 0; [ring|]. symmetry. rewrite (lsum_ext _ (fun _ => 0)); [apply lsum_zero|].
        intros c Hc. destruct (ind_dec I c u) as [Hcu|[_ E]]; auto. exfalso. rewrite Forall_forall in Hb. apply (Hb c Hc u); auto.
      - rewrite E. destruct IH as [IH|((c & Hc & Hcu) & IH)]; [left; lra|right]. split; [exists c; split; [right; auto|auto]|lra]. }
    destruct Inn as [->|[Hex ->]]; [lra|]. specialize (Cov Hex). lra.
Qed.
(** The content is unique and lies in [0, 1]. *)
Theorem content_unique I A v w : NoDup I -> content I A v -> content I A w -> v = w.
Proof.
  intros HN.
  assert (L: forall v w, content I A v -> content I A w -> v <= w).
  { intros a b Ha Hb. apply Rnot_lt_le. intros H. destruct (Ha ((a - b) / 4) ltac:(lra)) as (i1 & o1 & P1 & _ & D1 & I1 & _ & T1 & _).
    destruct (Hb ((a - b) / 4) ltac:(lra)) as (i2 & o2 & _ & P2 & _ & _ & C2 & _ & T2).
    assert (total I i1 <= total I o2); [|lra]. apply inner_outer; auto. intros c u Hc Hu. destruct (I1 c u Hc Hu). apply C2; auto. }
  intros Ha Hb. apply Rle_antisym; apply L; auto.
Qed.
Lemma volume_nonneg I b : proper I b -> 0 <= volume I b.
Proof. intros H. apply lprod_nonneg. intros i Hi. specialize (H i Hi). lra. Qed.
Lemma total_nonneg I bs : Forall (proper I) bs -> 0 <= total I bs.
Proof. intros H. apply lsum_nonneg. intros b Hb. rewrite Forall_forall in H. apply volume_nonneg. auto. Qed.
Lemma content_range I A v : NoDup I -> content I A v -> 0 <= v <= 1.
Proof.
  intros HN H. split.
  - apply Rnot_lt_le. intros Hv. destruct (H (- v / 2) ltac:(lra)) as (i & o & _ & P & _ & _ & _ & _ & T). pose proof (total_nonneg I o P). lra.
  - apply Rnot_lt_le. intros Hv. destruct (H ((v - 1) / 2) ltac:(lra)) as (i & o & P & _ & D & C & _ & T & _).
    assert (total I i <= total I [fun _ => (0, 1)]).
    { apply inner_outer; auto. { constructor; [|constructor]. intros j _. simpl. lra. } intros b u Hb Hu. exists (fun _ => (0, 1)). split; [left; reflexivity|]. apply (C b u Hb Hu). }
    unfold total at 2 in H0. unfold lsum in H0. simpl in H0. unfold volume in H0. cbn [fst snd] in H0.
    rewrite (lprod_ext _ (fun _ => 1)), lprod_one in H0 by (intros; ring). lra.
Qed.
Lemma content_ext I A B v : (forall u, cube I u -> (A u <-> B u)) -> content I A v -> content I B v.
Proof.
  intros E H d Hd. destruct (H d Hd) as (i & o & P1 & P2 & D & C1 & C2 & T1 & T2). exists i, o. split; auto. split; auto. split; auto. split; [|split; [|auto]].
  - intros b u Hb Hu. destruct (C1 b u Hb Hu) as [Hc HA]. split; auto. apply E; auto.
  - intros u Hu HB. apply C2; auto. apply E; auto.
Qed.
Lemma content_all : content [] (fun _ => True) 1.
Proof.
  intros d Hd. exists [fun _ => (0, 1)], [fun _ => (0, 1)].
  assert (T: total [] [fun _ => (0, 1)] = 1) by (unfold total, volume; simpl; ring). rewrite T.
  split; [constructor; [intros i []|constructor]|]. split; [constructor; [intros i []|constructor]|]. split; [constructor; constructor|].
  split; [intros b u _ _; split; [intros i []|exact I]|]. split; [|lra]. intros u _ _. eexists. split; [left; reflexivity|]. intros i [].
Qed.

(** * Independent entries *)
Section Product.
Variables I J : list entry_of.
Hypothesis HN : NoDup (I ++ J).
Definition glue (b c : box) : box := fun i => if in_dec (list_eq_dec Nat.eq_dec) i I then b i else c i.
Lemma apart i : In i I -> In i J -> False.
Proof.
  revert HN. induction I as [|x I' IH]; intros N Hi Hj; [destruct Hi|]. inversion N as [|? ? Hx N']; subst. destruct Hi as [<-|Hi].
  - apply Hx. apply in_app_iff. auto.
  - apply IH; auto.
Qed.
Lemma glue_l b c i : In i I -> glue b c i = b i.
Proof. intros H. unfold glue. destruct (in_dec (list_eq_dec Nat.eq_dec) i I); [auto|contradiction]. Qed.
Lemma glue_r b c i : In i J -> glue b c i = c i.
Proof. intros H. unfold glue. destruct (in_dec (list_eq_dec Nat.eq_dec) i I) as [Hi|]; auto. exfalso. apply (apart i); auto. Qed.
Lemma glue_inside b c u : inside (I ++ J) (glue b c) u <-> inside I b u /\ inside J c u.
Proof.
  split.
  - intros H. split; intros i Hi.
    + specialize (H i ltac:(apply in_app_iff; auto)). rewrite glue_l in H; auto.
    + specialize (H i ltac:(apply in_app_iff; auto)). rewrite glue_r in H; auto.
  - intros [H1 H2] i Hi. apply in_app_iff in Hi as [Hi|Hi]; [rewrite glue_l|rewrite glue_r]; auto.
Qed.
Lemma glue_proper b c : proper I b -> proper J c -> proper (I ++ J) (glue b c).
Proof. intros H1 H2 i Hi. apply in_app_iff in Hi as [Hi|Hi]; [rewrite glue_l|rewrite glue_r]; auto. Qed.
Lemma glue_volume b c : volume (I ++ J) (glue b c) = volume I b * volume J c.
Proof.
  unfold volume. rewrite lprod_app. f_equal; apply lprod_ext; intros i Hi; [rewrite glue_l|rewrite glue_r]; auto.
Qed.
Definition glue_all (bs cs : list box) : list box := flat_map (fun b => map (glue b) cs) bs.
Lemma glue_all_in bs cs p : In p (glue_all bs cs) <-> exists b c, In b bs /\ In c cs /\ p = glue b c.
Proof.
  unfold glue_all. rewrite in_flat_map. split.
  - intros (b & Hb & Hp). apply in_map_iff in Hp as (c & <- & Hc). eauto.
  - intros (b & c & Hb & Hc & ->). exists b. split; auto. apply in_map; auto.
Qed.
Lemma glue_total bs cs : total (I ++ J) (glue_all bs cs) = total I bs * total J cs.
Proof.
  unfold total, glue_all. rewrite lsum_flat_map. rewrite <- lsum_scal_r. apply lsum_ext. intros b _. rewrite lsum_map. rewrite <- lsum_scal_l. apply lsum_ext. intros c _. apply glue_volume.
Qed.
Lemma glue_disjoint bs cs : disjoint I bs -> disjoint J cs -> disjoint (I ++ J) (glue_all bs cs).
Proof.
  assert (App: forall K l1 l2, disjoint K l1 -> disjoint K l2 -> (forall b c u, In b l1 -> In c l2 -> inside K b u -> inside K c u -> False) -> disjoint K (l1 ++ l2)).
  { intros K l1 l2 H1 H2 H. induction H1 as [|b l1 Hb H1 IH]; auto. cbn [app]. constructor.
    - apply Forall_app. split; auto. apply Forall_forall. intros c Hc u. apply (H b c u); auto. left; reflexivity.
    - apply IH. intros x c u Hx. apply H. right; auto. }
  intros Hb Hc. induction Hb as [|b bs Hb Hbs IH]; [constructor|]. unfold glue_all. cbn [flat_map]. apply App; auto.
  - clear - Hc HN. induction Hc as [|c cs Hc Hcs IH]; [constructor|]. cbn [map]. constructor; auto. apply Forall_forall. intros p Hp. apply in_map_iff in Hp as (c' & <- & Hc').
    intros u H1 H2. apply glue_inside in H1. apply glue_inside in H2. rewrite Forall_forall in Hc. apply (Hc c' Hc' u); tauto.
  - intros p q u Hp Hq H1 H2. apply in_map_iff in Hp as (c & <- & Hcc). apply glue_all_in in Hq as (b' & c' & Hb' & Hc' & ->).
    apply glue_inside in H1. apply glue_inside in H2. rewrite Forall_forall in Hb. apply (Hb b' Hb' u); tauto.
Qed.
Lemma total_le_one K i : NoDup K -> Forall (proper K) i -> disjoint K i -> (forall b u, In b i -> inside K b u -> cube K u) -> total K i <= 1.
Proof.
  intros HK P D C. assert (total K i <= total K [fun _ => (0, 1)]) as H0.
  { apply inner_outer; auto. { constructor; [|constructor]. intros j _. simpl. lra. } intros b u Hb Hu. exists (fun _ => (0, 1)). split; [left; reflexivity|]. apply (C b u Hb Hu). }
  unfold total at 2 in H0. cbn [lsum] in H0. unfold volume in H0. cbn [fst snd] in H0.
  rewrite (lprod_ext _ (fun _ => 1)), lprod_one in H0 by (intros; ring). lra.
Qed.
Lemma nodup_l : NoDup I.
Proof. revert HN. induction I as [|x I' IH]; intros N; [constructor|]. inversion N; subst. constructor; auto. intros H. apply H1. apply in_app_iff. auto. Qed.
Lemma nodup_r : NoDup J.
Proof. revert HN. induction I as [|x I' IH]; intros N; auto. inversion N; subst. auto. Qed.
Theorem content_prod A B a b : content I A a -> content J B b -> content (I ++ J) (fun u => A u /\ B u) (a * b).
Proof.
  intros Ha Hb d Hd. pose proof (content_range I A a nodup_l Ha). pose proof (content_range J B b nodup_r Hb).
  set (e := Rmin (d / 3) 1). assert (He: 0 < e <= 1 /\ 3 * e <= d) by (unfold e, Rmin; destruct (Rle_dec (d / 3) 1); lra).
  destruct (Ha e ltac:(lra)) as (i1 & o1 & P1 & Q1 & D1 & C1 & V1 & T1 & S1).
  destruct (Hb e ltac:(lra)) as (i2 & o2 & P2 & Q2 & D2 & C2 & V2 & T2 & S2).
  assert (Pr: forall l1 l2, Forall (proper I) l1 -> Forall (proper J) l2 -> Forall (proper (I ++ J)) (glue_all l1 l2)).
  { intros l1 l2 H1 H2. apply Forall_forall. intros p Hp. apply glue_all_in in Hp as (x & y & Hx & Hy & ->). rewrite Forall_forall in H1, H2. apply glue_proper; auto. }
  exists (glue_all i1 i2), (glue_all o1 o2). split; [auto|]. split; [auto|]. split; [apply glue_disjoint; auto|]. split; [|split; [|rewrite !glue_total]].
  - intros p u Hp Hu. apply glue_all_in in Hp as (x & y & Hx & Hy & ->). apply glue_inside in Hu as [Hu1 Hu2].
    destruct (C1 x u Hx Hu1) as [K1 A1]. destruct (C2 y u Hy Hu2) as [K2 A2]. split; [|auto]. intros j Hj. apply in_app_iff in Hj as [Hj|Hj]; auto.
  - intros u Hu [HA HB]. destruct (V1 u) as (x & Hx & Hxu); auto; [intros j Hj; apply Hu; apply in_app_iff; auto|].
    destruct (V2 u) as (y & Hy & Hyu); auto; [intros j Hj; apply Hu; apply in_app_iff; auto|].
    exists (glue x y). split; [apply glue_all_in; eauto|]. apply glue_inside; auto.
  - pose proof (total_nonneg I i1 P1). pose proof (total_nonneg J i2 P2). pose proof (total_nonneg I o1 Q1). pose proof (total_nonneg J o2 Q2).
    assert (total I i1 <= 1) by (apply total_le_one; auto; [apply nodup_l|intros x u Hx Hu; apply (C1 x u); auto]).
    assert (total J i2 <= 1) by (apply total_le_one; auto; [apply nodup_r|intros x u Hx Hu; apply (C2 x u); auto]).
    split; nra.
Qed.
End Product.

(** * Disjoint sets, and families of sets about separate entries *)
Theorem content_or I (A B : (entry_of -> R) -> Prop) a b : (forall u, cube I u -> A u -> B u -> False) -> content I A a -> content I B b -> content I (fun u => A u \/ B u) (a + b).
Proof.
  intros HD HA HB d Hd. destruct (HA (d / 2) ltac:(lra)) as (i1 & o1 & P1 & Q1 & D1 & C1 & E1 & T1 & U1). destruct (HB (d / 2) ltac:(lra)) as (i2 & o2 & P2 & Q2 & D2 & C2 & E2 & T2 & U2).
  exists (i1 ++ i2), (o1 ++ o2). assert (Tot: forall x y, total I (x ++ y) = total I x + total I y) by (intros; apply lsum_app).
  rewrite !Tot. split; [apply Forall_app; auto|]. split; [apply Forall_app; auto|]. split; [|split; [|split; [|split; lra]]].
  - clear - D1 D2 C1 C2 HD. induction i1 as [|x l IH]; auto. inversion D1; subst. cbn [app]. constructor; [|apply IH; auto; intros; apply (C1 b); [right; auto|auto]].
    apply Forall_app. split; auto. apply Forall_forall. intros c Hc u H3 H4. destruct (C1 x u (or_introl eq_refl) H3). destruct (C2 c u Hc H4). eauto.
  - intros x u Hx Hu. apply in_app_iff in Hx as [Hx|Hx]; [destruct (C1 x u Hx Hu)|destruct (C2 x u Hx Hu)]; auto.
  - intros u Hu [H|H]; [destruct (E1 u Hu H) as (x & Hx & Hi)|destruct (E2 u Hu H) as (x & Hx & Hi)]; exists x; split; auto; apply in_app_iff; auto.
Qed.
Lemma content_none I : content I (fun _ => False) 0.
Proof.
  intros d Hd. exists [], []. unfold total. cbn [lsum]. split; [constructor|]. split; [constructor|]. split; [constructor|]. split; [intros b u []|]. split; [intros u _ []|]. split; lra.
Qed.
Lemma content_cube I : content I (fun _ => True) 1.
Proof.
  intros d Hd. exists [fun _ => (0, 1)], [fun _ => (0, 1)]. assert (V: volume I (fun _ => (0, 1)) = 1) by (unfold volume; rewrite (lprod_ext _ (fun _ => 1)), lprod_one; auto; intros; cbn [fst snd]; ring).
  assert (P: proper I (fun _ => (0, 1))) by (intros i _; cbn [fst snd]; lra). unfold total. cbn [lsum]. rewrite V.
  split; [auto|]. split; [auto|]. split; [constructor; constructor|]. split; [|split; [|split; lra]].
  - intros b u [<-|[]] Hu. split; auto.
  - intros u Hu _. exists (fun _ => (0, 1)). split; [left; auto|exact Hu].
Qed.
(** The contents of a partition of the cube add up to one. *)
Theorem content_partition I n (A : nat -> (entry_of -> R) -> Prop) v : NoDup I -> (forall k, (k < n)%nat -> content I (A k) (v k)) ->
  (forall u j k, cube I u -> (j < n)%nat -> (k < n)%nat -> A j u -> A k u -> j = k) -> (forall u, cube I u -> exists k, (k < n)%nat /\ A k u) ->
  rsum n v = 1.
Proof.
  intros HN HA HD HC. assert (G: forall m, (m <= n)%nat -> content I (fun u => exists k, (k < m)%nat /\ A k u) (rsum m v)).
  { induction m as [|m IH]; intros Hm.
    - rewrite rsum_0. apply content_ext with (A := fun _ => False); [|apply content_none]. intros u _. split; [contradiction|]. intros (k & Hk & _). lia.
    - rewrite rsum_S. apply content_ext with (A := fun u => (exists k, (k < m)%nat /\ A k u) \/ A m u).
      + intros u _. split; [intros [(k & Hk & H)|H]; [exists k|exists m]; split; auto; lia|]. intros (k & Hk & H). destruct (Nat.eq_dec k m) as [->|]; [right; auto|left; exists k; split; auto; lia].
      + apply content_or; [|apply IH; lia|apply HA; lia]. intros u Hu (k & Hk & H1) H2. pose proof (HD u k m Hu ltac:(lia) ltac:(lia) H1 H2). lia. }
  apply (content_unique I (fun _ => True)); auto; [|apply content_cube]. apply content_ext with (A := fun u => exists k, (k < n)%nat /\ A k u); [|apply G; lia]. intros u Hu. split; auto.
Qed.
Theorem content_family {X} (L : list X) (blk : X -> list entry_of) (A : X -> (entry_of -> R) -> Prop) v : NoDup (flat_map blk L) -> (forall x, In x L -> content (blk x) (A x) (v x)) ->
  content (flat_map blk L) (fun u => forall x, In x L -> A x u) (lprod v L).
Proof.
  induction L as [|x L IH]; intros HN H.
  - cbn [flat_map lprod]. apply content_ext with (A := fun _ => True); [|apply content_all]. intros u _. split; auto. intros _ y [].
  - cbn [flat_map lprod] in *. apply content_ext with (A := fun u => A x u /\ forall y, In y L -> A y u).
    + intros u _. split; [intros [H1 H2] y [<-|Hy]; auto|]. intros H1. split; [apply H1; left; auto|intros y Hy; apply H1; right; auto].
    + apply content_prod; auto; [apply H; left; auto|]. apply IH; [eapply nodup_r; eauto|]. intros y Hy. apply H. right. auto.
Qed.
