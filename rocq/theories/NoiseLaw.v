(** Programs of categorical draws against choices made by uniform numbers: [law m I Inv Rel d] says that the cube over the entries I
    splits into sets, one for every outcome of m, on which the outcome is in the relation Rel to the uniform numbers, and whose contents
    differ from the probabilities of the outcomes by at most d in total. *)
From Coq Require Import List Arith Lia Bool Reals Lra.
Import ListNotations.
From Verif Require Import Base RSum Num Tensor Prob Layers RefFwd RefSample RefLaw Diff RefDiff Content Mean RefGumbel PropGumbel.
Local Open Scope R_scope.
Local Arguments Nat.div : simpl never.
Local Arguments Nat.modulo : simpl never.
Local Arguments Nat.sub : simpl never.
Local Arguments Nat.mul : simpl never.
Local Arguments Nat.add : simpl never.

Notation noise := (entry_of -> R).
Lemma cube_app I J u : cube (I ++ J) u <-> cube I u /\ cube J u.
Proof.
  unfold cube, inside. split.
  - intros H. split; intros i Hi; apply H, in_app_iff; auto.
  - intros [H1 H2] i Hi. apply in_app_iff in Hi as [Hi|Hi]; auto.
Qed.
Lemma fop_app {X} (P : X -> X -> Prop) l m : ForallOrdPairs P l -> ForallOrdPairs P m -> (forall x y, In x l -> In y m -> P x y) -> ForallOrdPairs P (l ++ m).
Proof.
  induction l as [|x l IH]; intros Hl Hm H; auto. inversion Hl; subst. cbn [app]. constructor.
  - apply Forall_app. split; auto. apply Forall_forall. intros y Hy. apply H; [left; auto|auto].
  - apply IH; auto. intros y z Hy Hz. apply H; [right; auto|auto].
Qed.
Lemma fop_flat {X Y} (P : Y -> Y -> Prop) (f : X -> list Y) l : (forall x, In x l -> ForallOrdPairs P (f x)) ->
  ForallOrdPairs (fun x y => forall a b, In a (f x) -> In b (f y) -> P a b) l -> ForallOrdPairs P (flat_map f l).
Proof.
  induction l as [|x l IH]; intros Hf Hl; [constructor|]. inversion Hl as [|? ? H1 H2]; subst. cbn [flat_map]. apply fop_app.
  - apply Hf. left. auto.
  - apply IH; auto. intros y Hy. apply Hf. right. auto.
  - intros a b Ha Hb. apply in_flat_map in Hb as (y & Hy & Hb). rewrite Forall_forall in H1. apply (H1 y Hy a b Ha Hb).
Qed.
Lemma fop_map {X Y} (P : Y -> Y -> Prop) (f : X -> Y) l : ForallOrdPairs (fun x y => P (f x) (f y)) l -> ForallOrdPairs P (map f l).
Proof.
  induction 1 as [|x l H1 H2 IH]; cbn [map]; constructor; auto. apply Forall_forall. intros y Hy. apply in_map_iff in Hy as (z & <- & Hz). rewrite Forall_forall in H1. auto.
Qed.
Lemma fop_impl {X} (P Q : X -> X -> Prop) l : (forall x y, P x y -> Q x y) -> ForallOrdPairs P l -> ForallOrdPairs Q l.
Proof. intros H. induction 1 as [|x l H1 H2 IH]; constructor; auto. eapply Forall_impl; [|exact H1]. auto. Qed.
Lemma flat_flat {X Y Z} (g : Y -> list Z) (f : X -> list Y) l : flat_map g (flat_map f l) = flat_map (fun x => flat_map g (f x)) l.
Proof. induction l as [|x l IH]; cbn [flat_map]; auto. rewrite flat_map_app, IH. reflexivity. Qed.
Lemma flat_map_map {X Y Z} (g : Y -> list Z) (f : X -> Y) l : flat_map g (map f l) = flat_map (fun x => g (f x)) l.
Proof. induction l as [|x l IH]; cbn [map flat_map]; auto. rewrite IH. reflexivity. Qed.
Lemma flat_map_length {X Y} (f : X -> list Y) c l : (forall x, In x l -> length (f x) = c) -> length (flat_map f l) = (length l * c)%nat.
Proof. induction l as [|x l IH]; intros H; cbn [flat_map length]; auto. rewrite app_length, IH by (intros; apply H; right; auto). rewrite H by (left; auto). ring. Qed.
Lemma list_choice {X Y} (P : X -> Y -> Prop) l : (forall x, In x l -> exists y, P x y) -> exists F : list (X * Y), map fst F = l /\ Forall (fun p => P (fst p) (snd p)) F.
Proof.
  induction l as [|x l IH]; intros H; [exists []; split; [reflexivity|constructor]|].
  destruct (IH (fun y Hy => H y (or_intror Hy))) as (F & E & HF). destruct (H x (or_introl eq_refl)) as (y & Hy).
  exists ((x, y) :: F). split; [cbn [map fst]; congruence|constructor; auto].
Qed.

Section Law.
Context {V : Type}.
Record kase (A : Type) : Type := mkK { k_val : A; k_set : noise -> Prop; k_pr : R; k_w : R }.
Arguments mkK {A}. Arguments k_val {A}. Arguments k_set {A}. Arguments k_pr {A}. Arguments k_w {A}.
Definition as_part {A} (h : A -> R) (x : kase A) : part := mkPart (k_set x) (k_pr x) (h (k_val x)).
Record cases {A} (m : M V A) (I : list entry_of) (Inv : A -> Prop) (Rel : A -> noise -> Prop) (d : R) (cs : list (kase A)) : Prop := {
  cs_disj : ForallOrdPairs (fun x y => forall u, cube I u -> k_set x u -> k_set y u -> False) cs;
  cs_cover : forall u, cube I u -> exists x, In x cs /\ k_set x u;
  cs_content : forall x, In x cs -> content I (k_set x) (k_pr x);
  cs_pos : forall x, In x cs -> 0 <= k_w x;
  cs_one : lsum k_w cs = 1;
  cs_inv : forall x, In x cs -> Inv (k_val x);
  cs_rel : forall x u, In x cs -> cube I u -> k_set x u -> Rel (k_val x) u;
  cs_expect : forall EL, leaf_expectation EL -> forall g, expect EL m g = lsum (fun x => k_w x * g (k_val x)) cs;
  cs_near : lsum (fun x => Rabs (k_pr x - k_w x)) cs <= d }.
Definition law {A} (m : M V A) I Inv Rel d : Prop := exists cs, @cases A m I Inv Rel d cs.

Lemma cases_partition {A} (m : M V A) I Inv Rel d cs (h : A -> R) : cases m I Inv Rel d cs -> partition I (map (as_part h) cs).
Proof.
  intros H. split; [|split].
  - apply fop_map. eapply fop_impl; [|apply (cs_disj _ _ _ _ _ _ H)]. auto.
  - intros u Hu. destruct (cs_cover _ _ _ _ _ _ H u Hu) as (x & Hx & Hs). exists (as_part h x). split; [apply in_map; auto|auto].
  - apply Forall_forall. intros p Hp. apply in_map_iff in Hp as (x & <- & Hx). apply (cs_content _ _ _ _ _ _ H x Hx).
Qed.
Lemma cases_one {A} (m : M V A) I Inv Rel d cs : NoDup I -> cases m I Inv Rel d cs -> lsum k_pr cs = 1.
Proof.
  intros HN H. pose proof (partition_one I _ HN (cases_partition m I Inv Rel d cs (fun _ => 0) H)) as E. rewrite lsum_map in E. exact E.
Qed.
Lemma law_mono {A} (m : M V A) I (Inv Inv' : A -> Prop) (Rel Rel' : A -> noise -> Prop) d d' : law m I Inv Rel d ->
  (forall a, Inv a -> Inv' a) -> (forall a u, Inv a -> cube I u -> Rel a u -> Rel' a u) -> d <= d' -> law m I Inv' Rel' d'.
Proof.
  intros (cs & [C1 C2 C3 C4 C5 C6 C7 C8 C9]) HI HR Hd. exists cs. split; auto. lra.
Qed.
Lemma law_ext {A} (m m' : M V A) I Inv Rel d : m = m' -> law m I Inv Rel d -> law m' I Inv Rel d.
Proof. intros ->. auto. Qed.
Lemma law_ret {A} (a : A) (Inv : A -> Prop) (Rel : A -> noise -> Prop) : Inv a -> (forall u, Rel a u) -> law (Ret a) [] Inv Rel 0.
Proof.
  intros HI HR. exists [mkK a (fun _ => True) 1 1]. split.
  - constructor; constructor.
  - intros u _. eexists. split; [left; reflexivity|exact I].
  - intros x [<-|[]]. apply content_all.
  - intros x [<-|[]]. cbn [k_w]. lra.
  - cbn [lsum k_w]. lra.
  - intros x [<-|[]]. exact HI.
  - intros x u [<-|[]] _ _. apply HR.
  - intros EL _ g. cbn [expect lsum k_w k_val]. lra.
  - cbn [lsum k_w k_pr]. rewrite Rminus_diag_eq, Rabs_R0 by reflexivity. lra.
Qed.
Lemma law_bind {A B} (m : M V A) (f : A -> M V B) I J (Inv1 : A -> Prop) (R1 : A -> noise -> Prop) (Inv2 : B -> Prop) (R2 : A -> B -> noise -> Prop) d1 d2 :
  NoDup (I ++ J) -> law m I Inv1 R1 d1 -> (forall a, Inv1 a -> law (f a) J Inv2 (R2 a) d2) ->
  law (mbind m f) (I ++ J) Inv2 (fun b u => exists a, Inv1 a /\ R1 a u /\ R2 a b u) (d1 + d2).
Proof.
  intros HN (cs1 & C1) H2. pose proof (nodup_l I J HN) as NI. pose proof (nodup_r I J HN) as NJ.
  destruct (list_choice (fun x l => cases (f (k_val x)) J Inv2 (R2 (k_val x)) d2 l) cs1) as (F & EF & HF).
  { intros x Hx. apply (H2 (k_val x)). apply (cs_inv _ _ _ _ _ _ C1 x Hx). }
  rewrite Forall_forall in HF.
  set (both := fun (x : kase A) (y : kase B) => mkK (k_val y) (fun u => k_set x u /\ k_set y u) (k_pr x * k_pr y) (k_w x * k_w y)).
  set (cs := flat_map (fun p => map (both (fst p)) (snd p)) F).
  assert (InF: forall p, In p F -> In (fst p) cs1) by (intros p Hp; rewrite <- EF; apply in_map; auto).
  assert (SF: forall h : kase A -> R, lsum (fun p => h (fst p)) F = lsum h cs1) by (intros h; rewrite <- EF, lsum_map; reflexivity).
  assert (Hin: forall z, In z cs -> exists p y, In p F /\ In y (snd p) /\ z = both (fst p) y).
  { intros z Hz. apply in_flat_map in Hz as (p & Hp & Hz). apply in_map_iff in Hz as (y & <- & Hy). eauto. }
  exists cs. split.
  - apply fop_flat.
    + intros p Hp. apply fop_map. eapply fop_impl; [|apply (cs_disj _ _ _ _ _ _ (HF p Hp))]. intros x y H u Hu [_ Hx] [_ Hy]. apply cube_app in Hu as [_ Hu]. eapply H; eauto.
    + pose proof (cs_disj _ _ _ _ _ _ C1) as D. rewrite <- EF in D. clear - D. induction F as [|p F IH]; [constructor|]. cbn [map] in D. inversion D as [|? ? D1 D2]; subst. constructor; auto.
      apply Forall_forall. intros q Hq a b Ha Hb u Hu Sa Sb. apply in_map_iff in Ha as (? & <- & _). apply in_map_iff in Hb as (? & <- & _). destruct Sa as [Sa _], Sb as [Sb _].
      apply cube_app in Hu as [Hu _]. rewrite Forall_forall in D1. apply (D1 (fst q) (in_map fst F q Hq) u Hu Sa Sb).
  - intros u Hu. apply cube_app in Hu as [Hu1 Hu2]. destruct (cs_cover _ _ _ _ _ _ C1 u Hu1) as (x & Hx & Sx). rewrite <- EF in Hx. apply in_map_iff in Hx as (p & <- & Hp).
    destruct (cs_cover _ _ _ _ _ _ (HF p Hp) u Hu2) as (y & Hy & Sy). exists (both (fst p) y). split; [|split; auto]. apply in_flat_map. exists p. split; auto. apply in_map. auto.
  - intros z Hz. destruct (Hin z Hz) as (p & y & Hp & Hy & ->). cbn [both k_set k_pr]. apply content_prod; auto.
    + apply (cs_content _ _ _ _ _ _ C1). auto.
    + apply (cs_content _ _ _ _ _ _ (HF p Hp)). auto.
  - intros z Hz. destruct (Hin z Hz) as (p & y & Hp & Hy & ->). cbn [both k_w]. apply Rmult_le_pos; [apply (cs_pos _ _ _ _ _ _ C1); auto|apply (cs_pos _ _ _ _ _ _ (HF p Hp)); auto].
  - unfold cs. rewrite lsum_flat_map. rewrite (lsum_ext _ (fun p => k_w (fst p))).
    + rewrite SF. apply (cs_one _ _ _ _ _ _ C1).
    + intros p Hp. rewrite lsum_map. cbn [both k_w]. rewrite lsum_scal_l, (cs_one _ _ _ _ _ _ (HF p Hp)). ring.
  - intros z Hz. destruct (Hin z Hz) as (p & y & Hp & Hy & ->). cbn [both k_val]. apply (cs_inv _ _ _ _ _ _ (HF p Hp)). auto.
  - intros z u Hz Hu Sz. destruct (Hin z Hz) as (p & y & Hp & Hy & ->). cbn [both k_val]. destruct Sz as [S1 S2]. apply cube_app in Hu as [Hu1 Hu2].
    exists (k_val (fst p)). split; [apply (cs_inv _ _ _ _ _ _ C1); auto|]. split; [apply (cs_rel _ _ _ _ _ _ C1); auto|apply (cs_rel _ _ _ _ _ _ (HF p Hp)); auto].
  - intros EL HEL g. rewrite expect_bind by auto. rewrite (cs_expect _ _ _ _ _ _ C1 EL HEL). unfold cs. rewrite lsum_flat_map. rewrite <- (SF (fun x => k_w x * expect EL (f (k_val x)) g)).
    apply lsum_ext. intros p Hp. rewrite lsum_map. rewrite (cs_expect _ _ _ _ _ _ (HF p Hp) EL HEL), <- lsum_scal_l. apply lsum_ext. intros y _. cbn [both k_w k_val]. ring.
  - unfold cs. rewrite lsum_flat_map. apply Rle_trans with (lsum (fun p => Rabs (k_pr (fst p) - k_w (fst p)) + k_w (fst p) * d2) F).
    + apply lsum_le. intros p Hp. rewrite lsum_map. set (x := fst p).
      assert (Wx: 0 <= k_w x) by (apply (cs_pos _ _ _ _ _ _ C1), InF, Hp).
      apply Rle_trans with (lsum (fun y => Rabs (k_pr x - k_w x) * k_pr y + k_w x * Rabs (k_pr y - k_w y)) (snd p)).
      * apply lsum_le. intros y Hy. cbn [both k_pr k_w]. assert (Py: 0 <= k_pr y) by (eapply content_range; [exact NJ|apply (cs_content _ _ _ _ _ _ (HF p Hp)); auto]).
        replace (k_pr x * k_pr y - k_w x * k_w y) with ((k_pr x - k_w x) * k_pr y + k_w x * (k_pr y - k_w y)) by ring.
        eapply Rle_trans; [apply Rabs_triang|]. rewrite !Rabs_mult, (Rabs_right (k_pr y)), (Rabs_right (k_w x)) by lra. lra.
      * rewrite lsum_plus, !lsum_scal_l. rewrite (cases_one _ _ _ _ _ _ NJ (HF p Hp)). pose proof (cs_near _ _ _ _ _ _ (HF p Hp)). fold x.
        assert (k_w x * lsum (fun y => Rabs (k_pr y - k_w y)) (snd p) <= k_w x * d2) by (apply Rmult_le_compat_l; auto). lra.
    + rewrite lsum_plus, lsum_scal_r. rewrite (SF (fun x => Rabs (k_pr x - k_w x))), (SF k_w), (cs_one _ _ _ _ _ _ C1). pose proof (cs_near _ _ _ _ _ _ C1). lra.
Qed.

Lemma law_draws {A X} (L : list X) (dr : X -> M V A) (blk : X -> list entry_of) (Inv : X -> A -> Prop) (Rel : X -> A -> noise -> Prop) d :
  NoDup (flat_map blk L) -> (forall x, In x L -> law (dr x) (blk x) (Inv x) (Rel x) d) ->
  law (draws (map dr L)) (flat_map blk L) (fun l => Forall2 Inv L l) (fun l u => Forall2 (fun x a => Rel x a u) L l) (lsum (fun _ => d) L).
Proof.
  induction L as [|x L IH]; intros HN HL.
  - cbn [map draws flat_map lsum]. apply law_ret; constructor.
  - cbn [map draws flat_map lsum] in *. pose proof (nodup_r _ _ HN) as NJ.
    eapply law_mono; [apply (law_bind (dr x) _ (blk x) (flat_map blk L) (Inv x) (Rel x) (fun l => Forall2 Inv (x :: L) l) (fun a l u => Inv x a /\ exists l', l = a :: l' /\ Forall2 (fun y b => Rel y b u) L l') d (lsum (fun _ => d) L) HN)| | |].
    + apply HL. left. auto.
    + intros a Ha. eapply law_mono; [rewrite <- (app_nil_r (flat_map blk L)); apply (law_bind (draws (map dr L)) (fun l => Ret (a :: l)) (flat_map blk L) [] (fun l => Forall2 Inv L l) (fun l u => Forall2 (fun x a => Rel x a u) L l)
        (fun l => Forall2 Inv (x :: L) l) (fun l0 l u => l = a :: l0) (lsum (fun _ => d) L) 0)| | |].
      * rewrite app_nil_r. exact NJ.
      * apply IH; auto. intros y Hy. apply HL. right. auto.
      * intros l Hl. apply law_ret; auto.
      * auto.
      * intros l u _ _ (l0 & H1 & H2 & ->). split; auto. exists l0. auto.
      * lra.
    + auto.
    + intros l u _ _ (a & Ha & H1 & _ & l' & -> & H2). constructor; auto.
    + lra.
Qed.
Lemma Forall2_nth {X Y} (P : X -> Y -> Prop) l m dx dy : Forall2 P l m -> forall i, (i < length l)%nat -> P (nth i l dx) (nth i m dy).
Proof. induction 1 as [|x y l m H1 H2 IH]; intros i Hi; [cbn in Hi; lia|]. destruct i as [|i]; cbn [nth]; auto. apply IH. cbn in Hi. lia. Qed.
Lemma law_draw_fun {A} (dflt : A) s : forall (dr : list nat -> M V A) (blk : list nat -> list entry_of) (Inv : list nat -> A -> Prop) (Rel : list nat -> A -> noise -> Prop) d,
  NoDup (flat_map blk (all_idx s)) -> (forall idx, inb s idx -> law (dr idx) (blk idx) (Inv idx) (Rel idx) d) ->
  law (draw_fun dflt s dr) (flat_map blk (all_idx s)) (fun g => forall idx, inb s idx -> Inv idx (g idx)) (fun g u => forall idx, inb s idx -> Rel idx (g idx) u) (lsum (fun _ => d) (all_idx s)).
Proof.
  induction s as [|n s IH]; intros dr blk Inv Rel d HN H.
  - cbn [draw_fun all_idx flat_map lsum] in *. rewrite app_nil_r in *. eapply law_mono; [rewrite <- (app_nil_r (blk [])); apply (law_bind (dr []) (fun a => Ret (fun _ => a)) (blk []) [] (Inv []) (Rel []) (fun g => Inv [] (g [])) (fun a g u => g [] = a) d 0)| | |].
    + rewrite app_nil_r. auto.
    + apply H. exact I.
    + intros a Ha. apply law_ret; auto.
    + intros g Hg [|i idx] Hi; [auto|destruct Hi].
    + intros g u _ _ (a & H1 & H2 & H3) [|i idx] Hi; [|destruct Hi]. rewrite H3. auto.
    + lra.
  - cbn [draw_fun all_idx] in *. rewrite flat_flat in *.
    assert (Eb: forall i, flat_map blk (map (cons i) (all_idx s)) = flat_map (fun idx => blk (i :: idx)) (all_idx s)) by (intros i; apply flat_map_map).
    assert (Ed: lsum (fun _ => d) (flat_map (fun i => map (cons i) (all_idx s)) (seq 0 n)) = lsum (fun _ => lsum (fun _ => d) (all_idx s)) (seq 0 n)).
    { rewrite lsum_flat_map. apply lsum_ext. intros i _. rewrite lsum_map. reflexivity. }
    rewrite Ed. set (B := flat_map (fun x => flat_map blk (map (cons x) (all_idx s))) (seq 0 n)) in *.
    eapply law_mono; [rewrite <- (app_nil_r B); apply (law_bind (draws (map (fun i => draw_fun dflt s (fun idx => dr (i :: idx))) (seq 0 n))) _ B []
      (fun l => Forall2 (fun i (g : list nat -> A) => forall idx, inb s idx -> Inv (i :: idx) (g idx)) (seq 0 n) l) (fun l u => Forall2 (fun i (g : list nat -> A) => forall idx, inb s idx -> Rel (i :: idx) (g idx) u) (seq 0 n) l)
      (fun g => forall idx, inb (n :: s) idx -> Inv idx (g idx))
      (fun fs g u => forall i idx, (i < n)%nat -> inb s idx -> g (i :: idx) = nth i fs (fun _ => dflt) idx) (lsum (fun _ => lsum (fun _ => d) (all_idx s)) (seq 0 n)) 0)| | |].
    + rewrite app_nil_r. auto.
    + apply law_draws; auto. intros i Hi. apply in_seq in Hi. rewrite Eb. apply (IH (fun idx => dr (i :: idx)) (fun idx => blk (i :: idx)) (fun idx => Inv (i :: idx)) (fun idx => Rel (i :: idx)) d).
      * rewrite <- Eb. assert (Hs: In i (seq 0 n)) by (apply in_seq; lia). unfold B in HN. clear - HN Hs. induction (seq 0 n) as [|j l IHl]; [destruct Hs|]. cbn [flat_map] in HN.
        destruct Hs as [->|Hs]; [apply (nodup_l _ _ HN)|apply IHl; auto; apply (nodup_r _ _ HN)].
      * intros idx Hb. apply H. cbn [inb]. split; [lia|auto].
    + intros fs Hfs. apply law_ret; [|auto]. intros [|i idx] Hb; [destruct Hb|]. destruct Hb as [Hi Hb].
      pose proof (Forall2_nth _ _ _ 0%nat (fun _ => dflt) Hfs i) as Q. rewrite seq_length, seq_nth in Q by auto. rewrite Nat.add_0_l in Q. apply Q; auto.
    + auto.
    + intros g u _ _ (fs & H1 & H2 & H3) [|i idx] Hb; [destruct Hb|]. destruct Hb as [Hi Hb]. rewrite H3 by auto.
      pose proof (Forall2_nth _ _ _ 0%nat (fun _ => dflt) H2 i) as Q. rewrite seq_length, seq_nth in Q by auto. rewrite Nat.add_0_l in Q. apply Q; auto.
    + lra.
Qed.

(** One categorical draw against the maximum of the perturbed log probabilities. *)
Definition gap1 (K : nat) : R := INR K * ((INR K + 2) * eps).
Lemma law_cat K (p : nat -> R) (e : nat -> entry_of) : (0 < K)%nat -> (forall k, (k < K)%nat -> 0 < p k) -> rsum K p = 1 ->
  (forall i j, (i < K)%nat -> (j < K)%nat -> e i = e j -> i = j) ->
  law (Cat (map (fun k => Fin (ln (p k))) (seq 0 K)) (fun i => Ret i)) (sites K e) (fun k => (k < K)%nat)
    (fun k u => nargmax K (fun j => Fin (ln (p j) + rgumbel (u (e j)))) = k) (gap1 K).
Proof.
  intros HK Hp Hs He. set (w := fun k => ln (p k)).
  assert (q0: forall k, (k < K)%nat -> {q : R | content (sites K e) (wins K w k e) q /\ Rabs (q - exp (w k) / rsum K (fun j => exp (w j))) <= (INR K + 2) * eps}).
  { intros k Hk. exact (wins_softmax K w k Hk e He). }
  set (q := fun k => match lt_dec k K with left H => proj1_sig (q0 k H) | right _ => 0 end).
  assert (Hq: forall k, (k < K)%nat -> content (sites K e) (wins K w k e) (q k) /\ Rabs (q k - p k) <= (INR K + 2) * eps).
  { intros k Hk. unfold q. destruct (lt_dec k K) as [H|]; [|contradiction]. destruct (proj2_sig (q0 k H)) as [A B]. split; auto.
    replace (p k) with (exp (w k) / rsum K (fun j => exp (w j))); auto. unfold w. rewrite exp_ln by auto.
    rewrite (rsum_ext K (fun j => exp (ln (p j))) p) by (intros; apply exp_ln; auto). rewrite Hs. field. }
  clearbody q. clear q0. exists (map (fun k => mkK k (wins K w k e) (q k) (p k)) (seq 0 K)).
  assert (Hin: forall x, In x (map (fun k => mkK k (wins K w k e) (q k) (p k)) (seq 0 K)) -> exists k, (k < K)%nat /\ x = mkK k (wins K w k e) (q k) (p k)).
  { intros x Hx. apply in_map_iff in Hx as (k & <- & Hk). apply in_seq0 in Hk. eauto. }
  split.
  - apply fop_map. assert (ND: NoDup (seq 0 K)) by apply seq_NoDup. clear Hin. induction ND as [|k l Hk ND IH]; constructor; auto. apply Forall_forall. intros j Hj u _ S1 S2. cbn [k_set] in *. unfold wins in *. congruence.
  - intros u _. set (k := nargmax K (fun j => Fin (w j + rgumbel (u (e j))))). exists (mkK k (wins K w k e) (q k) (p k)). split; [|reflexivity].
    apply in_map_iff. exists k. split; auto. apply in_seq0. apply nargmax_lt; auto.
  - intros x Hx. destruct (Hin x Hx) as (k & Hk & ->). apply Hq; auto.
  - intros x Hx. destruct (Hin x Hx) as (k & Hk & ->). cbn [k_w]. left. auto.
  - rewrite lsum_map. cbn [k_w]. exact Hs.
  - intros x Hx. destruct (Hin x Hx) as (k & Hk & ->). exact Hk.
  - intros x u Hx _ Sx. destruct (Hin x Hx) as (k & Hk & ->). exact Sx.
  - intros EL _ g. cbn [expect]. rewrite map_length, seq_length, lsum_map. cbn [k_w k_val]. unfold rsum at 1. apply lsum_ext. intros k Hk. apply in_seq0 in Hk. rewrite catp_rows; auto.
  - rewrite lsum_map. cbn [k_pr k_w]. unfold gap1. apply Rle_trans with (lsum (fun _ => (INR K + 2) * eps) (seq 0 K)).
    + apply lsum_le. intros k Hk. apply in_seq0 in Hk. apply Hq; auto.
    + rewrite lsum_const, seq_length. lra.
Qed.

(** The entries of the torch.rand tensor of shape (N, D, K) with number [i]. *)
Definition tagged (i N D K : nat) : list entry_of := map (cons i) (entries N D K).
Definition gap3 (N D K : nat) : R := INR (N * D) * gap1 K.
Lemma tagged_blocks i N D K : tagged i N D K = flat_map (fun idx => sites K (fun k => i :: idx ++ [k])) (all_idx [N; D]).
Proof.
  unfold tagged, entries. cbn [all_idx]. rewrite flat_flat. rewrite flat_map_concat_map, concat_map, map_map, <- flat_map_concat_map. apply flat_map_ext. intros n.
  rewrite flat_map_map, flat_flat. rewrite flat_map_concat_map, concat_map, map_map, <- flat_map_concat_map. apply flat_map_ext. intros d.
  rewrite flat_map_map. cbn [flat_map map app]. rewrite app_nil_r, map_map. unfold sites. reflexivity.
Qed.
Lemma nodup_tagged i N D K : NoDup (tagged i N D K).
Proof. unfold tagged. apply FinFun.Injective_map_NoDup; [|apply nodup_entries]. intros x y E. congruence. Qed.
Lemma law_choose c lw i N D K w : c_mpe c = false -> lrows lw N D K w -> (0 < K)%nat ->
  (forall n d, (n < N)%nat -> (d < D)%nat -> rsum K (w n d) = 1) ->
  law (@choose V c lw) (tagged i N D K)
    (fun t => shape t = [N; D] /\ forall n d, (n < N)%nat -> (d < D)%nat -> (get t [n; d] < K)%nat)
    (fun t u => forall n d, (n < N)%nat -> (d < D)%nat -> nargmax K (fun k => Fin (ln (w n d k) + rgumbel (u [i; n; d; k]))) = get t [n; d])
    (gap3 N D K).
Proof.
  intros Hc Hw HK Hs. unfold choose. rewrite Hc. unfold categorical. pose proof Hw as [Sw Gw]. rewrite Sw. cbn [removelast].
  assert (E: existsb (fun idx => existsb isnan (cat_row lw idx)) (all_idx [N; D]) = false).
  { destruct (existsb _ _) eqn:E; auto. exfalso. apply existsb_exists in E as (idx & Hin & E). apply in_all_idx in Hin. inbs.
    rewrite (cat_row_rows _ N D K w) in E by auto. apply existsb_exists in E as (z & Hz & Hz2). apply in_map_iff in Hz as (k & <- & _). discriminate. }
  rewrite E. unfold draw_tensor. rewrite tagged_blocks. set (blk := fun idx : list nat => sites K (fun k => i :: idx ++ [k])).
  set (P := flat_map blk (all_idx [N; D])).
  assert (NP: NoDup P) by (unfold P, blk; rewrite <- tagged_blocks; apply nodup_tagged).
  eapply law_mono; [rewrite <- (app_nil_r P); apply (law_bind (draw_fun 0%nat [N; D] (fun idx => @Cat V nat (cat_row lw idx) (fun i => Ret i))) (fun g => Ret (mkT [N; D] g)) P []
    (fun g => forall idx, inb [N; D] idx -> (g idx < K)%nat)
    (fun g u => forall idx, inb [N; D] idx -> nargmax K (fun k => Fin (ln (w (nth 0 idx 0%nat) (nth 1 idx 0%nat) k) + rgumbel (u (i :: idx ++ [k])))) = g idx)
    (fun t => shape t = [N; D] /\ forall n d, (n < N)%nat -> (d < D)%nat -> (get t [n; d] < K)%nat) (fun g t u => get t = g) (lsum (fun _ => gap1 K) (all_idx [N; D])) 0)| | |].
  - rewrite app_nil_r. auto.
  - apply (law_draw_fun 0%nat [N; D] _ blk (fun _ k => (k < K)%nat) (fun idx k u => nargmax K (fun j => Fin (ln (w (nth 0 idx 0%nat) (nth 1 idx 0%nat) j) + rgumbel (u (i :: idx ++ [j])))) = k)); auto.
    intros idx Hb. inbs. match goal with H1 : (?n < N)%nat, H2 : (?d < D)%nat |- _ => rewrite (cat_row_rows lw N D K w n d) by auto; unfold blk; cbn [nth]; apply (law_cat K (w n d)); auto end.
    + intros k Hk. apply Gw; auto.
    + intros a b _ _ E'. cbn [app] in E'. congruence.
  - intros g Hg. apply law_ret; auto. split; auto. intros n d Hn Hd. apply Hg. cbn [inb]. auto.
  - auto.
  - intros t u _ _ (g & H1 & H2 & H3) n d Hn Hd. rewrite H3. apply (H2 [n; d]). cbn [inb]. auto.
  - unfold gap3. rewrite lsum_const. cbn [all_idx]. rewrite Rplus_0_r. apply Req_le. f_equal. f_equal.
    rewrite flat_map_length with (c := D); [rewrite seq_length; auto|]. intros n _. rewrite map_length, flat_map_length with (c := 1%nat); [rewrite seq_length; lia|]. reflexivity.
Qed.
End Law.
