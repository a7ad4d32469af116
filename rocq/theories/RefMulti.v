(** Layers made of several leaf distributions: which part serves which feature. *)
From Coq Require Import List Arith Lia Bool Reals Lra Permutation.
Import ListNotations.
From Verif Require Import Base RSum Num Tensor Prob Layers Circuit Net RefFwd RefSample RefLaw Leaf Perm RefLeaf RefLeafS Einet RefNet
  RefEinet RefEinetS RefMpe RefScopes Diff Params MultiDist.
Local Open Scope R_scope.
Local Arguments Nat.div : simpl never.
Local Arguments Nat.modulo : simpl never.
Local Arguments Nat.sub : simpl never.
Local Arguments Nat.mul : simpl never.
Local Arguments Nat.add : simpl never.
Local Arguments Nat.min : simpl never.
Local Arguments clamp : simpl never.
Local Arguments bdim : simpl never.

(** * Concatenation *)
Lemma cat_list_ok {A} (d0 : tensor A) a b post : forall sizes (ts : list (tensor A)), ts <> [] -> length ts = length sizes ->
  (forall i, (i < length ts)%nat -> shape (nth i ts d0) = a :: b :: nth i sizes 0%nat :: post) ->
  exists y, cat_list 2 ts = Ok y /\ shape y = a :: b :: list_sum sizes :: post /\
    forall i j n c rest, (i < length ts)%nat -> (j < nth i sizes 0)%nat ->
      get y (n :: c :: (offset sizes i + j)%nat :: rest) = get (nth i ts d0) (n :: c :: j :: rest).
Proof.
  induction sizes as [|s sizes IH]; intros ts Hne Hl Hs; destruct ts as [|t ts]; cbn [length] in Hl; try congruence; try lia.
  clear Hne. destruct ts as [|t' ts].
  - destruct sizes; [|cbn [length] in Hl; lia]. exists t. split; [reflexivity|]. split.
    + specialize (Hs 0%nat ltac:(cbn; lia)). cbn [nth] in Hs. rewrite Hs. cbn [list_sum fold_right]. rewrite Nat.add_0_r. reflexivity.
    + intros i j n c rest Hi Hj. cbn [length] in Hi. assert (i = 0%nat) by lia. subst i. rewrite offset_0, Nat.add_0_l. reflexivity.
  - set (ts' := t' :: ts) in *. destruct (IH ts') as (y & Ey & Sy & Gy); [discriminate|cbn [length] in *; lia| |].
    { intros i Hi. apply (Hs (S i)). cbn [length]. lia. }
    assert (E: cat_list 2 (t :: ts') = bind (cat_list 2 ts') (fun y => cat2 2 t y)) by reflexivity.
    rewrite E, Ey. cbn [bind]. pose proof (Hs 0%nat ltac:(cbn; lia)) as S0. cbn [nth] in S0.
    unfold cat2, size. rewrite S0, Sy. cbn [set_nth nth]. rewrite eqb_list_refl. eexists. split; [reflexivity|]. split; [reflexivity|].
    intros i j n c rest Hi Hj. cbn [get nth set_nth]. destruct i as [|i].
    + rewrite offset_0, Nat.add_0_l. cbn [nth] in *. destruct (Nat.ltb_spec j s); [reflexivity|lia].
    + rewrite offset_S. cbn [nth] in *. destruct (Nat.ltb_spec (s + offset sizes i + j) s); [lia|].
      replace (s + offset sizes i + j - s)%nat with (offset sizes i + j)%nat by lia. apply Gy; [cbn [length] in *; lia|auto].
Qed.

Lemma rprod_parts (h : nat -> R) : forall sizes, rprod (list_sum sizes) h =
  rprod (length sizes) (fun i => rprod (nth i sizes 0%nat) (fun j => h (offset sizes i + j)%nat)).
Proof.
  intros sizes. revert h. induction sizes as [|s sizes IH]; intros h; [reflexivity|].
  change (list_sum (s :: sizes)) with (s + list_sum sizes)%nat. rewrite rprod_add, IH. cbn [length].
  replace (S (length sizes)) with (1 + length sizes)%nat by lia. rewrite rprod_add. rewrite (rprod_S 0), rprod_0, Rmult_1_l. cbn [nth].
  f_equal.
  apply rprod_ext. intros i _. change (1 + i)%nat with (S i). cbn [nth]. apply rprod_ext. intros j _.
  change (1 + i)%nat with (S i). rewrite offset_S. f_equal. lia.
Qed.

Lemma mapM_ex {A B} (f : A -> res B) (Q : nat -> B -> Prop) (da : A) (db : B) : forall l,
  (forall i, (i < length l)%nat -> exists b, f (nth i l da) = Ok b /\ Q i b) ->
  exists bs, mapM f l = Ok bs /\ length bs = length l /\ forall i, (i < length l)%nat -> Q i (nth i bs db).
Proof.
  intros l. revert Q. induction l as [|x l IH]; intros Q H.
  - exists []. split; auto. split; auto. cbn. intros; lia.
  - destruct (H 0%nat) as (b & Eb & Hb); [cbn; lia|]. cbn [nth] in Eb.
    destruct (IH (fun i => Q (S i))) as (bs & Ebs & Hl & Hbs).
    { intros i Hi. apply (H (S i)). cbn [length]. lia. }
    exists (b :: bs). cbn [mapM]. rewrite Eb. cbn [bind]. rewrite Ebs. cbn [bind length]. split; auto. split; [lia|].
    intros [|i] Hi; cbn [nth]; auto. apply Hbs. lia.
Qed.

(** * Independent draws *)
(** [indep s key p]: a tensor of shape [s] with one draw from the leaf distribution [key idx] at every [idx], independently. *)
Definition indep {V} (s : list nat) (key : list nat -> list nat) (p : M V (tensor V)) : Prop :=
  (forall supp r, outcome supp p r -> exists t, r = Ok t /\ shape t = s /\ forall idx, inb s idx -> supp (key idx) (get t idx)) /\
  (forall EL, leaf_expectation EL -> forall h : list nat -> V -> R,
     expect EL p (fun t => lprod (fun idx => h idx (get t idx)) (all_idx s)) = lprod (fun idx => EL (key idx) (h idx)) (all_idx s)).

Lemma NoDup_app3 {A} (l l' : list A) : NoDup l -> NoDup l' -> (forall x, In x l -> In x l' -> False) -> NoDup (l ++ l').
Proof.
  induction 1 as [|x l Hx Hl IH]; intros H' Hd; cbn [app]; auto. constructor.
  - rewrite in_app_iff. intros [H|H]; [auto|]. apply (Hd x); [left|]; auto.
  - apply IH; auto. intros y Hy. apply Hd. right; auto.
Qed.
Lemma all_idx_NoDup s : NoDup (all_idx s).
Proof.
  induction s as [|n s IH]; cbn [all_idx]; [constructor; [intros []|constructor]|].
  assert (Z: forall m k, NoDup (flat_map (fun i => map (cons i) (all_idx s)) (seq k m))).
  { induction m; intros k; cbn [seq flat_map]; [constructor|]. apply NoDup_app3.
    - apply FinFun.Injective_map_NoDup; auto. intros x y E. congruence.
    - apply IHm.
    - intros x H1 H2. apply in_map_iff in H1 as (u & <- & _). apply in_flat_map in H2 as (i & Hi & H2).
      apply in_map_iff in H2 as (w & E & _). apply in_seq in Hi. inversion E. lia. }
  apply Z.
Qed.
Lemma lprod_image {A B} (f : A -> R) (s : B -> A) : forall (l' : list B) (l : list A),
  NoDup l -> NoDup (map s l') -> incl (map s l') l -> (forall y, In y l -> ~ In y (map s l') -> f y = 1) ->
  lprod f l = lprod (fun x => f (s x)) l'.
Proof.
  induction l' as [|x l' IH]; intros l Hl Hl' Hi H1; cbn [map lprod] in *.
  - rewrite (lprod_ext _ (fun _ => 1)); [apply lprod_one|]. intros a Ha. apply H1; auto.
  - inversion Hl' as [|? ? N1 N2]; subst. destruct (in_split (s x) l) as (l1 & l2 & ->); [apply Hi; left; auto|].
    rewrite lprod_app. cbn [lprod]. rewrite <- (IH (l1 ++ l2)).
    + rewrite lprod_app. ring.
    + eapply NoDup_remove_1; eauto.
    + auto.
    + intros y Hy. assert (In y (l1 ++ s x :: l2)) by (apply Hi; right; auto).
      apply in_app_iff in H. apply in_app_iff. destruct H as [H|[H|H]]; auto. subst y. contradiction.
    + intros y Hy Hn. apply H1.
      * apply in_app_iff in Hy. apply in_app_iff. destruct Hy; [left|right; right]; auto.
      * intros [E|E]; [|auto]. subst y. apply NoDup_remove_2 in Hl. auto.
Qed.

Section Indep.
Context {V : Type}.

Lemma indep_draw z s (key : list nat -> list nat) : indep s key (draw_tensor (V := V) z s (fun idx => LeafD (key idx) (fun v => Ret v))).
Proof.
  split.
  - intros supp r Ho. apply outcome_draw_tensor in Ho as [(e & idx & _ & _ & Hd)|(t & -> & St & Gt)].
    + inversion Hd as [| | | |k kk v rr Hv Hr]; subst. inversion Hr.
    + exists t. split; auto. split; auto. intros idx Hi. specialize (Gt idx Hi).
      inversion Gt as [| | | |k kk v rr Hv Hr]; subst. inversion Hr; subst. auto.
  - intros EL HEL h. rewrite expect_draw_tensor by auto. reflexivity.
Qed.

Lemma indep_select s s' key (sg : list nat -> list nat) (k : tensor V -> res (tensor V)) p : indep s key p ->
  (forall t, shape t = s -> exists t', k t = Ok t' /\ shape t' = s' /\ forall idx, inb s' idx -> get t' idx = get t (sg idx)) ->
  (forall idx, inb s' idx -> inb s (sg idx)) ->
  (forall i j, inb s' i -> inb s' j -> sg i = sg j -> i = j) ->
  indep s' (fun idx => key (sg idx)) (mbind p (fun t => lift (k t))).
Proof.
  intros [O X] Hk Hb Hinj. split.
  - intros supp r Ho. apply outcome_bind in Ho as [(e & Ho & _)|(t & Ho & Hr)].
    { destruct (O _ _ Ho) as (t & Z & _). discriminate. }
    destruct (O _ _ Ho) as (t0 & Z & St & Gt). inversion Z; subst t0. destruct (Hk t St) as (t' & Et & St' & Gt').
    rewrite Et in Hr. apply outcome_ret_inv in Hr. exists t'. split; auto. split; auto. intros idx Hi. rewrite Gt' by auto. apply Gt. auto.
  - intros EL HEL h. rewrite expect_bind by auto.
    set (pre := fun y => find (fun x => eqb_list (sg x) y) (all_idx s')).
    assert (P1: forall x, inb s' x -> pre (sg x) = Some x).
    { intros x Hx. unfold pre. destruct (find _ _) as [x'|] eqn:E.
      - apply find_some in E as [H1 H2]. apply eqb_list_eq in H2. apply in_all_idx in H1. f_equal. auto.
      - exfalso. apply find_none with (x := x) in E; [rewrite eqb_list_refl in E; discriminate|]. apply in_all_idx; auto. }
    assert (P2: forall y, ~ In y (map sg (all_idx s')) -> pre y = None).
    { intros y Hy. unfold pre. destruct (find _ _) as [x'|] eqn:E; auto. apply find_some in E as [H1 H2]. apply eqb_list_eq in H2.
      exfalso. apply Hy. apply in_map_iff. eauto. }
    assert (ND: NoDup (map sg (all_idx s'))).
    { pose proof (all_idx_NoDup s') as N. revert N. generalize (fun x => proj1 (in_all_idx s' x)). generalize (all_idx s').
      induction l as [|x l IH]; intros Hl N; cbn [map]; [constructor|]. inversion N; subst. constructor.
      - intros Hin. apply in_map_iff in Hin as (x' & E & Hx'). apply Hinj in E; [subst; auto| |]; apply Hl; [right|left]; auto.
      - apply IH; auto. intros y Hy. apply Hl. right; auto. }
    assert (IN: incl (map sg (all_idx s')) (all_idx s)).
    { intros y Hy. apply in_map_iff in Hy as (x & <- & Hx). apply in_all_idx in Hx. apply in_all_idx. auto. }
    set (h' := fun y v => match pre y with Some x => h x v | None => 1 end).
    transitivity (expect EL p (fun t => lprod (fun y => h' y (get t y)) (all_idx s))).
    + apply (expect_ext_outcome EL HEL). intros t Ho. destruct (O _ _ Ho) as (t0 & Z & St & _). inversion Z; subst t0.
      destruct (Hk t St) as (t' & -> & St' & Gt'). cbn [lift expect].
      rewrite (lprod_image _ sg (all_idx s') (all_idx s)); auto; [|apply all_idx_NoDup|].
      * apply lprod_ext. intros idx Hi. apply in_all_idx in Hi. unfold h'. rewrite P1 by auto. rewrite Gt' by auto. auto.
      * intros y _ Hy. unfold h'. rewrite P2; auto.
    + rewrite X by auto. rewrite (lprod_image _ sg (all_idx s') (all_idx s)); auto; [|apply all_idx_NoDup|].
      * apply lprod_ext. intros idx Hi. apply in_all_idx in Hi. apply (EL_ext EL HEL). intros v. unfold h'. rewrite P1 by auto. auto.
      * intros y _ Hy. rewrite (EL_ext EL HEL _ _ (fun _ => 1)); [apply (EL_one EL HEL)|]. intros v. unfold h'. rewrite P2; auto.
Qed.
Lemma indep_ext s key key' p : (forall idx, inb s idx -> key idx = key' idx) -> indep (V := V) s key p -> indep s key' p.
Proof.
  intros H [O X]. split.
  - intros supp r Ho. destruct (O _ _ Ho) as (t & E & St & Gt). exists t. split; auto. split; auto. intros idx Hi. rewrite <- H; auto.
  - intros EL HEL h. rewrite X by auto. apply lprod_ext. intros idx Hi. rewrite H; auto. apply in_all_idx; auto.
Qed.

(** Marked draws. *)
Lemma expect_tag {A} EL i (p : M V A) g : leaf_expectation EL -> expect EL (tag i p) g = expect (fun key => EL (i :: key)) p g.
Proof.
  intros HEL. induction p as [a|e|w k IH|key k IH]; cbn [tag expect]; auto.
  - apply rsum_ext. intros j _. rewrite IH. auto.
  - apply (EL_ext EL HEL). auto.
Qed.
Lemma outcome_tag {A} supp i (p : M V A) r : outcome supp (tag i p) r -> outcome (fun key => supp (i :: key)) p r.
Proof.
  revert r. induction p as [a|e|w k IH|key k IH]; cbn [tag]; intros r H; inversion H; subst; try (econstructor; eauto; fail); apply out_empty; auto.
Qed.
Lemma indep_tag i s key (p : M V (tensor V)) : indep s key p -> indep s (fun idx => i :: key idx) (tag i p).
Proof.
  intros [O X]. split.
  - intros supp r Ho. apply outcome_tag in Ho. apply (O _ _ Ho).
  - intros EL HEL h. rewrite expect_tag by auto. apply (X (fun key => EL (i :: key))).
    split; intros; [apply (EL_ext EL HEL)|apply (EL_scal EL HEL)|apply (EL_one EL HEL)]; auto.
Qed.

(** Independent parts, put side by side. *)
Definition cat_key (sizes : list nat) (keys : nat -> list nat -> list nat) (idx : list nat) : list nat :=
  match idx with
  | n :: c :: k :: rest => let i := slot sizes k in keys i (n :: c :: (k - offset sizes i)%nat :: rest)
  | _ => []
  end.
Lemma cat_key_at sizes keys i j n c rest : (i < length sizes)%nat -> (j < nth i sizes 0)%nat ->
  cat_key sizes keys (n :: c :: (offset sizes i + j)%nat :: rest) = keys i (n :: c :: j :: rest).
Proof.
  intros Hi Hj. unfold cat_key. rewrite (slot_unique sizes i) by (auto; lia). cbv zeta. do 4 f_equal. lia.
Qed.
Lemma indep_cat (z : V) a b post sizes keys (ps : list (M V (tensor V))) : ps <> [] -> length ps = length sizes ->
  (forall i, (i < length ps)%nat -> indep (a :: b :: nth i sizes 0%nat :: post) (keys i) (nth i ps (Fail GenericExc))) ->
  indep (a :: b :: list_sum sizes :: post) (cat_key sizes keys) (ss <~ draws ps ;; lift (cat_list 2 ss)).
Proof.
  intros Hne Hl Hp. set (d0 := mkT [] (fun _ : list nat => z)).
  assert (O: forall supp r, outcome supp (draws ps) r -> exists ts, r = Ok ts /\ length ts = length ps /\
     forall i, (i < length ps)%nat -> shape (nth i ts d0) = a :: b :: nth i sizes 0%nat :: post /\
       forall idx, inb (a :: b :: nth i sizes 0%nat :: post) idx -> supp (keys i idx) (get (nth i ts d0) idx)).
  { intros supp r Ho. apply outcome_draws in Ho as [(e & d & _ & Hin & Hd)|(ts & -> & Hlt & Hts)].
    - apply In_nth with (d := Fail GenericExc) in Hin as (i & Hi & <-). destruct (Hp i Hi) as [Oi _].
      destruct (Oi _ _ Hd) as (t & Z & _). discriminate.
    - exists ts. split; auto. split; auto. intros i Hi. specialize (Hts i (Fail GenericExc) d0 Hi). destruct (Hp i Hi) as [Oi _].
      destruct (Oi _ _ Hts) as (t & Z & St & Gt). inversion Z; subst t. auto. }
  assert (C: forall ts, length ts = length ps ->
     (forall i, (i < length ps)%nat -> shape (nth i ts d0) = a :: b :: nth i sizes 0%nat :: post) ->
     exists y, cat_list 2 ts = Ok y /\ shape y = a :: b :: list_sum sizes :: post /\
       forall i j n c rest, (i < length sizes)%nat -> (j < nth i sizes 0)%nat ->
         get y (n :: c :: (offset sizes i + j)%nat :: rest) = get (nth i ts d0) (n :: c :: j :: rest)).
  { intros ts Hlt Hs. destruct (cat_list_ok d0 a b post sizes ts) as (y & Ey & Sy & Gy).
    - intros ->. destruct ps; [congruence|discriminate].
    - congruence.
    - rewrite Hlt. auto.
    - exists y. split; auto. split; auto. intros. apply Gy; auto. congruence. }
  split.
  - intros supp r Ho. apply outcome_bind in Ho as [(e & Ho & _)|(ts & Ho & Hr)].
    { destruct (O _ _ Ho) as (t & Z & _). discriminate. }
    destruct (O _ _ Ho) as (ts' & Z & Hlt & Hts). inversion Z; subst ts'.
    destruct (C ts Hlt (fun i Hi => proj1 (Hts i Hi))) as (y & Ey & Sy & Gy). rewrite Ey in Hr. apply outcome_ret_inv in Hr.
    exists y. split; auto. split; auto. intros idx Hi. destruct idx as [|n [|c [|k rest]]]; cbn [inb] in Hi; try tauto.
    destruct Hi as (Hn & Hc & Hk & Hr'). destruct (slot_ok sizes k Hk) as [S1 S2].
    set (i := slot sizes k) in *. replace k with (offset sizes i + (k - offset sizes i))%nat by lia.
    rewrite Gy, cat_key_at by lia. apply (proj2 (Hts i ltac:(lia))). cbn [inb]. repeat split; auto. lia.
  - intros EL HEL h. rewrite expect_bind by auto.
    set (h' := fun i (t : tensor V) => lprod (fun idx => h (match idx with n :: c :: j :: rest => n :: c :: (offset sizes i + j)%nat :: rest | _ => [] end) (get t idx))
                              (all_idx (a :: b :: nth i sizes 0%nat :: post))).
    assert (PP: forall u : list nat -> R, lprod u (all_idx (a :: b :: list_sum sizes :: post)) =
       rprod (length sizes) (fun i => lprod (fun idx => u (match idx with n :: c :: j :: rest => n :: c :: (offset sizes i + j)%nat :: rest | _ => [] end))
                              (all_idx (a :: b :: nth i sizes 0%nat :: post)))).
    { intros u. rewrite lprod_all_idx_cons.
      transitivity (rprod a (fun n => rprod (length sizes) (fun i => rprod b (fun c => rprod (nth i sizes 0%nat) (fun j =>
         lprod (fun rest => u (n :: c :: (offset sizes i + j)%nat :: rest)) (all_idx post)))))).
      - apply rprod_ext. intros n _. rewrite rprod_swap, lprod_all_idx_cons. apply rprod_ext. intros c _.
        rewrite lprod_all_idx_cons. apply (rprod_parts (fun k => lprod (fun rest => u (n :: c :: k :: rest)) (all_idx post))).
      - rewrite rprod_swap. apply rprod_ext. intros i _. rewrite lprod_all_idx_cons. apply rprod_ext. intros n _.
        rewrite lprod_all_idx_cons. apply rprod_ext. intros c _. rewrite lprod_all_idx_cons. reflexivity. }
    transitivity (expect EL (draws ps) (fun ts => rprod (length ps) (fun i => h' i (nth i ts d0)))).
    + apply (expect_ext_outcome EL HEL). intros ts Ho. destruct (O _ _ Ho) as (ts' & Z & Hlt & Hts). inversion Z; subst ts'.
      destruct (C ts Hlt (fun i Hi => proj1 (Hts i Hi))) as (y & -> & Sy & Gy). cbn [lift expect].
      rewrite PP, Hl. apply rprod_ext. intros i Hi. unfold h'. apply lprod_ext. intros idx Hx. apply in_all_idx in Hx.
      destruct idx as [|n [|c [|k rest]]]; cbn [inb] in Hx; try tauto. rewrite Gy; auto; tauto.
    + rewrite (expect_draws EL HEL d0 ps h'), PP, Hl. apply rprod_ext. intros i Hi. destruct (Hp i ltac:(lia)) as [_ Xi].
      unfold h'. rewrite (Xi EL HEL (fun idx => h (match idx with n :: c :: j :: rest => n :: c :: (offset sizes i + j)%nat :: rest | _ => [] end))).
      apply lprod_ext. intros idx Hx. apply in_all_idx in Hx. destruct idx as [|n [|c [|k rest]]]; cbn [inb] in Hx; try tauto.
      rewrite cat_key_at; auto; tauto.
Qed.
End Indep.

(** * Positions of the features *)
Section Place.
Context {V : Type}.
Implicit Type parts : list (list nat * bleaf V).

Definition part_sizes parts : list nat := map (fun p => length (fst p)) parts.
Lemma place parts i j sc lf f : nth_error parts i = Some (sc, lf) -> nth_error sc j = Some f ->
  nth_error (all_scopes parts) (offset (part_sizes parts) i + j) = Some f /\ (j < nth i (part_sizes parts) 0)%nat.
Proof.
  revert i. induction parts as [|[sc0 lf0] parts IH]; intros i Hi Hj; destruct i as [|i]; cbn [nth_error] in Hi; try discriminate.
  - inversion Hi; subst. cbn [all_scopes flat_map part_sizes map fst nth]. rewrite offset_0, Nat.add_0_l.
    assert (j < length sc)%nat by (apply nth_error_Some; congruence). rewrite nth_error_app1 by auto. auto.
  - destruct (IH i Hi Hj) as [H1 H2]. cbn [all_scopes flat_map part_sizes map fst nth]. rewrite offset_S.
    split; [|auto]. rewrite nth_error_app2 by lia. rewrite <- H1. unfold all_scopes, part_sizes. f_equal. lia.
Qed.
Lemma part_sizes_sum parts : list_sum (part_sizes parts) = length (all_scopes parts).
Proof.
  induction parts as [|[sc lf] parts IH]; cbn [part_sizes map all_scopes flat_map]; auto.
  rewrite app_length. cbn [fst]. unfold all_scopes in IH. rewrite <- IH. reflexivity.
Qed.
Lemma part_sizes_length parts : length (part_sizes parts) = length parts.
Proof. apply map_length. Qed.
Lemma part_sizes_nth parts i sc lf : nth_error parts i = Some (sc, lf) -> nth i (part_sizes parts) 0%nat = length sc.
Proof.
  intros H. unfold part_sizes. apply nth_error_nth. rewrite nth_error_map, H. reflexivity.
Qed.

Lemma sort_perm l n : is_perm l n -> sort_list l = seq 0 n.
Proof.
  intros H. apply nth_ext with (d := 0%nat) (d' := 0%nat); unfold sort_list; rewrite map_length, argsort_length, (is_perm_length _ _ H).
  - rewrite seq_length. auto.
  - intros i Hi. rewrite seq_nth by auto. rewrite (nth_indep _ 0%nat (nth 0 l 0%nat)).
    + rewrite (map_nth (fun i => nth i l 0%nat)). apply (argsort_nth l n i H Hi).
    + rewrite map_length, argsort_length, (is_perm_length _ _ H). auto.
Qed.

Variable m : multi V.
(** Every feature is listed once; the parts have the sizes of the layer. *)
Record multi_ok : Prop := {
  mo_F : (0 < md_F m)%nat;
  mo_perm : is_perm (all_scopes (md_parts m)) (md_F m);
  mo_part : forall i sc lf, nth_error (md_parts m) i = Some (sc, lf) ->
    leaf_ok lf /\ (0 < length sc)%nat /\ lf_C lf = md_C m /\ lf_F lf = length sc /\ lf_L lf = md_L m /\ lf_R lf = md_R m }.
Hypothesis Hm : multi_ok.

Definition locate (f : nat) : nat * nat :=
  let p := nth f (inverted m) 0%nat in
  let i := slot (part_sizes (md_parts m)) p in (i, (p - offset (part_sizes (md_parts m)) i)%nat).
(** Part [i] lists [f] at position [j]. *)
Definition serves (f i j : nat) (lf : bleaf V) : Prop :=
  exists sc, nth_error (md_parts m) i = Some (sc, lf) /\ nth_error sc j = Some f.

Lemma serves_pos f i j lf : serves f i j lf ->
  (i < length (md_parts m))%nat /\ (j < nth i (part_sizes (md_parts m)) 0)%nat /\ (f < md_F m)%nat /\
  nth f (inverted m) 0%nat = (offset (part_sizes (md_parts m)) i + j)%nat /\
  (offset (part_sizes (md_parts m)) i + j < md_F m)%nat.
Proof.
  intros (sc & Hi & Hj). destruct (place _ _ _ _ _ _ Hi Hj) as [H1 H2].
  assert (L: (i < length (md_parts m))%nat) by (apply nth_error_Some; congruence).
  assert (P: (offset (part_sizes (md_parts m)) i + j < md_F m)%nat).
  { rewrite <- (is_perm_length _ _ (mo_perm Hm)). apply nth_error_Some. congruence. }
  apply nth_error_nth with (d := 0%nat) in H1.
  split; auto. split; auto. split; [rewrite <- H1; apply is_perm_lt; auto; apply (mo_perm Hm)|]. split; auto.
  unfold inverted. rewrite <- H1. apply (argsort_left _ _ _ (mo_perm Hm) P).
Qed.
Lemma serves_locate f i j lf : serves f i j lf -> locate f = (i, j).
Proof.
  intros H. destruct (serves_pos _ _ _ _ H) as (H1 & H2 & H3 & H4 & H5). unfold locate. rewrite H4.
  rewrite (slot_unique _ i) by (rewrite ?part_sizes_length; lia). cbv zeta. f_equal. lia.
Qed.
Lemma served f : (f < md_F m)%nat -> exists i j lf, serves f i j lf.
Proof.
  intros Hf. destruct (is_perm_surj _ _ _ (mo_perm Hm) Hf) as (p & Hp & Ep).
  assert (Hp': (p < list_sum (part_sizes (md_parts m)))%nat) by (rewrite part_sizes_sum, (is_perm_length _ _ (mo_perm Hm)); auto).
  destruct (slot_ok _ p Hp') as [S1 S2]. set (i := slot (part_sizes (md_parts m)) p) in *. rewrite part_sizes_length in S1.
  destruct (nth_error (md_parts m) i) as [[sc lf]|] eqn:Ei; [|apply nth_error_None in Ei; lia].
  rewrite (part_sizes_nth _ _ _ _ Ei) in S2.
  destruct (nth_error sc (p - offset (part_sizes (md_parts m)) i)) as [f'|] eqn:Ej; [|apply nth_error_None in Ej; lia].
  exists i, (p - offset (part_sizes (md_parts m)) i)%nat, lf, sc. split; auto. rewrite Ej. f_equal.
  destruct (place _ _ _ _ _ _ Ei Ej) as [H1 _]. apply nth_error_nth with (d := 0%nat) in H1. rewrite <- H1.
  replace (offset (part_sizes (md_parts m)) i + (p - offset (part_sizes (md_parts m)) i))%nat with p by lia. auto.
Qed.

Lemma reorder_ok {A} a b post (t : tensor A) : shape t = a :: b :: md_F m :: post ->
  exists t', reorder m t = Ok t' /\ shape t' = shape t /\
    forall n c f rest, (f < md_F m)%nat -> get t' (n :: c :: f :: rest) = get t (n :: c :: nth f (inverted m) 0%nat :: rest).
Proof.
  intros St. unfold reorder, needs_inversion. destruct (eqb_list _ _) eqn:E; cbn [negb].
  - exists t. split; auto. split; auto. intros n c f rest Hf. do 3 f_equal. apply eqb_list_eq in E.
    rewrite (sort_perm _ _ (mo_perm Hm)) in E.
    pose proof (argsort_left _ _ f (mo_perm Hm) Hf) as A1. fold (inverted m) in A1. rewrite E in A1 at 1.
    rewrite seq_nth in A1 by auto. f_equal. rewrite <- A1 at 1. reflexivity.
  - unfold index_dim, vec. cbn [shape]. unfold size. rewrite St. cbn [nth].
    unfold inverted. rewrite argsort_length, (is_perm_length _ _ (mo_perm Hm)).
    replace (forallb _ _) with true.
    2:{ symmetry. apply forallb_forall. intros i Hi. apply in_seq0 in Hi. cbn [get hd]. apply Nat.ltb_lt.
        apply (argsort_nth _ _ i (mo_perm Hm) Hi). }
    eexists. split; [reflexivity|]. split; [cbn [shape set_nth]; auto|]. intros. reflexivity.
Qed.
End Place.

(** * The layer as one leaf *)
Section Comb.
Context {V : Type}.
Variable z : V.
Variable m : multi V.

Definition comb_at {A} (d : A) (k : list nat) (h : bleaf V -> list nat -> A) : A :=
  match k with
  | [c; f; l; r] =>
      let ij := locate m f in
      match nth_error (md_parts m) (fst ij) with Some (_, lf) => h lf [c; snd ij; l; r] | None => d end
  | _ => d
  end.
Definition comb : bleaf V := mkLf (md_C m) (md_F m) (md_L m) (md_R m)
  (fun k v => comb_at (Fin 0) k (fun lf k' => if lf_supp lf v then lf_logp lf k' v else Fin 0))
  (fun _ => true) z
  (if forallb (fun p => match lf_mode (snd p) with Some _ => true | None => false end) (md_parts m)
   then Some (fun k => comb_at z k (fun lf k' => match lf_mode lf with Some md => md k' | None => z end)) else None)
  (forallb (fun p => lf_ctx (snd p)) (md_parts m)).
(** The mark of a draw. *)
Definition mark (k : list nat) : list nat :=
  match k with
  | [c; f; l; r] => let ij := locate m f in [fst ij; c; snd ij; l; r]
  | _ => k
  end.
Definition relabel (EL : list nat -> (V -> R) -> R) : list nat -> (V -> R) -> R := fun k => EL (mark k).
Lemma relabel_ok EL : leaf_expectation EL -> leaf_expectation (relabel EL).
Proof. intros H. split; intros; unfold relabel; [apply (EL_ext EL H)|apply (EL_scal EL H)|apply (EL_one EL H)]; auto. Qed.

Hypothesis Hm : multi_ok m.

Lemma comb_at_serves {A} (d : A) h c f l r i j lf : serves m f i j lf -> comb_at d [c; f; l; r] h = h lf [c; j; l; r].
Proof.
  intros H. unfold comb_at. rewrite (serves_locate m Hm _ _ _ _ H). cbn [fst snd]. destruct H as (sc & -> & _). reflexivity.
Qed.
Lemma mark_serves c f l r i j lf : serves m f i j lf -> mark [c; f; l; r] = [i; c; j; l; r].
Proof. intros H. unfold mark. rewrite (serves_locate m Hm _ _ _ _ H). reflexivity. Qed.
Lemma serves_lt f i j lf : serves m f i j lf -> (j < lf_F lf)%nat.
Proof.
  intros (sc & Hi & Hj). destruct (mo_part m Hm _ _ _ Hi) as (_ & _ & _ & -> & _). apply nth_error_Some. congruence.
Qed.
Lemma comb_ok : leaf_ok comb.
Proof.
  split; [reflexivity|]. intros c f l r v Hc Hf Hl Hr _. cbn [comb lf_C lf_F lf_L lf_R lf_logp] in *.
  destruct (served m Hm f Hf) as (i & j & lf & S). rewrite (comb_at_serves _ _ _ _ _ _ _ _ _ S).
  destruct (lf_supp lf v) eqn:E; auto. pose proof (serves_lt _ _ _ _ S). destruct S as (sc & Hi & Hj).
  destruct (mo_part m Hm _ _ _ Hi) as ((_ & H1) & _ & E1 & E2 & E3 & E4). apply H1; auto; congruence.
Qed.

(** Values in the support of the part that serves their feature. *)
Definition own_support (N : nat) (x : tensor (option V)) : Prop := forall n c f i j lf v, (n < N)%nat -> (c < md_C m)%nat ->
  serves m f i j lf -> get x [n; c; f] = Some v -> lf_supp lf v = true.

Lemma multi_forward_rep N x ms : shape x = [N; md_C m; md_F m] -> own_support N x ->
  match ms with None => True | Some s => forall f, In f s -> (f < md_F m)%nat end ->
  exists t, multi_forward m x ms = Ok t /\ shape t = [N; md_C m; md_F m; md_L m; md_R m] /\
  forall n c f l r, (n < N)%nat -> (c < md_C m)%nat -> (f < md_F m)%nat -> (l < md_L m)%nat -> (r < md_R m)%nat ->
    get t [n; c; f; l; r] = Fin (ln (lval (pdf comb) (seen x ms n) c f l r)).
Proof.
  intros Sx Hs Hms. unfold multi_forward. set (fwd := fun p : list nat * bleaf V => bind (index_dim 2 (vec (fst p)) x) _).
  set (dl := ([] : list nat, mkLf 0 0 0 0 (fun _ _ => Fin 0) (fun _ => true) z None false)).
  set (dt := mkT [] (fun _ : list nat => Fin 0)).
  destruct (mapM_ex fwd (fun i t => shape t = md_C m :: [] \/ True -> forall sc lf, nth_error (md_parts m) i = Some (sc, lf) ->
     shape t = [N; md_C m; length sc; md_L m; md_R m] /\
     forall n c j f l r, (n < N)%nat -> (c < md_C m)%nat -> nth_error sc j = Some f -> (l < md_L m)%nat -> (r < md_R m)%nat ->
       get t [n; c; j; l; r] = Fin (ln (lval (pdf comb) (seen x None n) c f l r))) dl dt (md_parts m)) as (ts & Ets & Hlt & Hts).
  { intros i Hi. destruct (nth i (md_parts m) dl) as [sc lf] eqn:Ei.
    assert (Ni: nth_error (md_parts m) i = Some (sc, lf)) by (rewrite <- Ei; apply nth_error_nth'; auto).
    destruct (mo_part m Hm _ _ _ Ni) as (Hlf & Hsc & E1 & E2 & E3 & E4).
    assert (SV: forall j f, nth_error sc j = Some f -> serves m f i j lf) by (intros j f Hj; exists sc; auto).
    assert (Hlt: forall j, (j < length sc)%nat -> exists f, nth_error sc j = Some f /\ nth j sc 0%nat = f /\ (f < md_F m)%nat).
    { intros j Hj. destruct (nth_error sc j) as [f|] eqn:Ej; [|apply nth_error_None in Ej; lia]. exists f. split; auto.
      split; [apply nth_error_nth; auto|]. apply (serves_pos m Hm f i j lf). auto. }
    unfold fwd. cbn [fst snd]. unfold index_dim, vec. cbn [shape]. unfold size. rewrite Sx. cbn [nth set_nth].
    replace (forallb _ _) with true.
    2:{ symmetry. apply forallb_forall. intros j Hj. apply in_seq0 in Hj. cbn [get hd]. destruct (Hlt j Hj) as (f & _ & -> & Hf).
        apply Nat.ltb_lt. auto. }
    cbn [bind]. match goal with |- context [base_forward lf ?X None] => set (xd := X) end.
    assert (Gx: forall n c j, get xd [n; c; j] = get x [n; c; nth j sc 0%nat]) by reflexivity.
    destruct (base_forward_rep lf Hlf N xd None) as (t & Et & St & Gt).
    { split; [unfold xd; cbn [shape]; congruence|]. split; auto. intros n c j v Hn Hc Hj. rewrite Gx, E1, E2 in *.
      destruct (Hlt j Hj) as (f & Ej & -> & Hf). intros Hv. eapply Hs; [exact Hn|exact Hc|apply SV; exact Ej|exact Hv]. }
    exists t. split; [exact Et|]. intros _ sc' lf' Ni'. rewrite Ni in Ni'. inversion Ni'; subst sc' lf'. clear Ni'.
    rewrite E1, E2, E3, E4 in St, Gt. split; auto. intros n c j f l r Hn Hc Hj Hl Hr.
    assert (Hjl: (j < length sc)%nat) by (apply nth_error_Some; congruence). rewrite Gt by auto. do 2 f_equal.
    unfold lval, seen. cbn [in_ms]. rewrite Gx. rewrite (nth_error_nth _ _ _ Hj).
    destruct (get x [n; c; f]) as [v|] eqn:Ev; auto. unfold pdf. do 2 f_equal. cbn [comb lf_logp].
    rewrite (comb_at_serves _ _ _ _ _ _ _ _ _ (SV _ _ Hj)). rewrite (Hs n c f i j lf v); auto. }
  rewrite Ets. cbn [bind]. clear Ets.
  assert (Hne: ts <> []).
  { intros ->. destruct (served m Hm 0%nat (mo_F m Hm)) as (i & j & lf & sc & H & _). cbn [length] in Hlt.
    assert (i < length (md_parts m))%nat by (apply nth_error_Some; congruence). lia. }
  destruct (cat_list_ok dt N (md_C m) [md_L m; md_R m] (part_sizes (md_parts m)) ts) as (y & -> & Sy & Gy); auto.
  { rewrite part_sizes_length. auto. }
  { intros i Hi. rewrite Hlt in Hi. destruct (nth_error (md_parts m) i) as [[sc lf]|] eqn:Ni; [|apply nth_error_None in Ni; lia].
    rewrite (part_sizes_nth _ _ _ _ Ni). apply (Hts i Hi (or_intror I) sc lf Ni). }
  cbn [bind]. rewrite part_sizes_sum, (is_perm_length _ _ (mo_perm m Hm)) in Sy.
  destruct (reorder_ok m Hm N (md_C m) [md_L m; md_R m] y Sy) as (y' & -> & Sy' & Gy'). cbn [bind]. rewrite Sy in Sy'.
  assert (GY: forall n c f l r, (n < N)%nat -> (c < md_C m)%nat -> (f < md_F m)%nat -> (l < md_L m)%nat -> (r < md_R m)%nat ->
    get y' [n; c; f; l; r] = Fin (ln (lval (pdf comb) (seen x None n) c f l r))).
  { intros n c f l r Hn Hc Hf Hl Hr. rewrite Gy' by auto. destruct (served m Hm f Hf) as (i & j & lf & SV).
    destruct (serves_pos m Hm _ _ _ _ SV) as (Hi & Hj & _ & -> & _). rewrite Gy by (auto; lia).
    destruct SV as (sc & Ni & Nj). apply (Hts i Hi (or_intror I) sc lf Ni); auto. }
  unfold marginalize_input. destruct ms as [s|].
  - unfold size. rewrite Sy'. cbn [nth]. replace (forallb _ s) with true.
    2:{ symmetry. apply forallb_forall. intros f Hf. apply Nat.ltb_lt. auto. }
    cbn [guard bind]. eexists. split; [reflexivity|]. split; [reflexivity|]. intros n c f l r Hn Hc Hf Hl Hr. cbn [get nth].
    unfold lval, seen, in_ms. destruct (existsb (Nat.eqb f) s); [rewrite ln_1; auto|]. rewrite GY by auto. reflexivity.
  - eexists. split; [reflexivity|]. split; [exact Sy'|]. intros n c f l r Hn Hc Hf Hl Hr. cbn [get]. rewrite GY by auto. reflexivity.
Qed.

(** * Sampling the layer *)
Lemma part_none N (lf : bleaf V) c mpe D : lf_ctx lf = true -> cgood c N D (lf_L lf) (lf_R lf) ->
  (mpe = false -> indep [N; lf_C lf; lf_F lf; lf_L lf]
     (fun idx => match idx with [n; ch; f; l] => [ch; f; l; get (c_rep c) [n]] | _ => [] end) (base_sample lf N mpe None (c_rep c))) /\
  (forall md, mpe = true -> lf_mode lf = Some md -> exists t, base_sample lf N mpe None (c_rep c) = Ret t /\
     shape t = [N; lf_C lf; lf_F lf; lf_L lf] /\
     forall n ch f l, (n < N)%nat -> (ch < lf_C lf)%nat -> (f < lf_F lf)%nat -> (l < lf_L lf)%nat ->
       get t [n; ch; f; l] = md [ch; f; l; get (c_rep c) [n]]).
Proof.
  intros Hx Hc. unfold base_sample. rewrite Hx. cbn [guard lift mbind]. split.
  - intros ->. unfold leaf_mode_or_draw. rewrite mbind_assoc. cbn [mbind].
    eapply indep_ext; [|eapply (indep_select _ [N; lf_C lf; lf_F lf; lf_L lf] _
      (fun idx => match idx with [n; ch; f; l] => [n; 0%nat; ch; f; l; get (c_rep c) [n]] | _ => [] end)
      (fun s => leaf_select (unsqueeze 6 s) None (c_rep c)) _ (indep_draw _ _ _))].
    + intros idx Hi. inbs. reflexivity.
    + intros t St. destruct (leaf_select_none lf c N D _ _ (unsqueeze 6 t) Hc eq_refl eq_refl) as (t' & Et & St' & Gt').
      { cbn [unsqueeze shape]. rewrite St. reflexivity. }
      exists t'. split; auto. split; auto. intros idx Hi. inbs. rewrite Gt' by auto. reflexivity.
    + intros idx Hi. inbs. cbn [inb]. destruct Hc as (_ & _ & _ & _ & Gr). repeat split; auto; lia.
    + intros i j Hi Hj. inbs. intros E. inversion E; subst. reflexivity.
  - intros md -> Hmd. unfold leaf_mode_or_draw. rewrite Hmd.
    unfold repeat_t. cbn [shape length Nat.eqb lift mbind map2]. rewrite !Nat.mul_1_r, !Nat.mul_1_l. set (s := mkT _ _).
    destruct (leaf_select_none lf c N D _ _ (unsqueeze 6 (unsqueeze 1 s)) Hc eq_refl eq_refl eq_refl) as (t & -> & St & Gt).
    exists t. split; auto. split; auto. intros n ch f l Hn Hch Hf Hl. rewrite Gt by auto.
    cbn [unsqueeze get remove_nth s map2 tl]. destruct Hc as (_ & _ & _ & _ & Gr). rewrite !Nat.mod_small by auto. reflexivity.
Qed.
Lemma part_some N (lf : bleaf V) c mpe : lf_ctx lf = true -> (0 < lf_F lf)%nat -> cgood c N (lf_F lf) (lf_L lf) (lf_R lf) ->
  (mpe = false -> indep [N; lf_C lf; lf_F lf]
     (fun idx => match idx with [n; ch; f] => [ch; f; get (c_out c) [n; f]; get (c_rep c) [n]] | _ => [] end)
     (base_sample lf N mpe (Some (c_out c)) (c_rep c))) /\
  (forall md, mpe = true -> lf_mode lf = Some md -> exists t, base_sample lf N mpe (Some (c_out c)) (c_rep c) = Ret t /\
     shape t = [N; lf_C lf; lf_F lf] /\
     forall n ch f, (n < N)%nat -> (ch < lf_C lf)%nat -> (f < lf_F lf)%nat ->
       get t [n; ch; f] = md [ch; f; get (c_out c) [n; f]; get (c_rep c) [n]]).
Proof.
  intros Hx HF Hc. pose proof (direct_routes lf c N HF Hc) as Rt. unfold base_sample. rewrite Hx. cbn [guard lift mbind]. split.
  - intros ->. unfold leaf_mode_or_draw. rewrite mbind_assoc. cbn [mbind].
    eapply indep_ext; [|eapply (indep_select _ [N; lf_C lf; lf_F lf] _
      (fun idx => match idx with [n; ch; f] => [n; 0%nat; ch; f; get (c_out c) [n; f]; get (c_rep c) [n]] | _ => [] end)
      (fun s => leaf_select (unsqueeze 6 s) (Some (c_out c)) (c_rep c)) _ (indep_draw _ _ _))].
    + intros idx Hi. inbs. reflexivity.
    + intros t St. destruct (Rt (unsqueeze 6 t)) as (t' & Et & St' & Gt').
      { cbn [unsqueeze shape]. rewrite St. reflexivity. }
      exists t'. split; auto. split; auto. intros idx Hi. inbs. rewrite Gt' by auto. reflexivity.
    + intros idx Hi. inbs. cbn [inb]. destruct Hc as (_ & _ & Go & _ & Gr). repeat split; auto; lia.
    + intros i j Hi Hj. inbs. intros E. inversion E; subst. reflexivity.
  - intros md -> Hmd. exact (leaf_mode_prog lf _ c N (lf_F lf) (fun _ f => f) md Hc (fun r f _ H => H) Rt Hmd).
Qed.

Definition part_progs (N : nat) (mpe : bool) (p : option (tensor nat)) (rep : tensor nat) : list (M V (tensor V)) :=
  map (fun ip => part_sample N mpe p rep (fst ip) (snd ip)) (combine (seq 0 (length (md_parts m))) (md_parts m)).
Lemma part_progs_nth N mpe p rep i sc lf d : nth_error (md_parts m) i = Some (sc, lf) ->
  nth i (part_progs N mpe p rep) d = part_sample N mpe p rep i (sc, lf).
Proof.
  intros H. unfold part_progs. apply nth_error_nth. rewrite nth_error_map.
  assert (L: (i < length (md_parts m))%nat) by (apply nth_error_Some; congruence).
  replace (nth_error (combine (seq 0 (length (md_parts m))) (md_parts m)) i) with (Some (i, (sc, lf))); [reflexivity|].
  symmetry. rewrite (nth_error_nth' _ (0%nat, (sc, lf))) by (rewrite combine_length, seq_length; lia).
  rewrite combine_nth by apply seq_length. rewrite seq_nth by auto. rewrite (nth_error_nth _ _ _ H). reflexivity.
Qed.
Lemma part_progs_length N mpe p rep : length (part_progs N mpe p rep) = length (md_parts m).
Proof. unfold part_progs. rewrite map_length, combine_length, seq_length. lia. Qed.
Lemma parts_ne : md_parts m <> [].
Proof.
  intros E. destruct (served m Hm 0%nat (mo_F m Hm)) as (i & j & lf & sc & H & _). rewrite E in H. destruct i; discriminate.
Qed.

Lemma multi_indep N post p rep keys :
  (forall i sc lf, nth_error (md_parts m) i = Some (sc, lf) ->
     indep (N :: md_C m :: length sc :: post) (keys i) (part_sample N false p rep i (sc, lf))) ->
  indep (N :: md_C m :: md_F m :: post)
    (fun idx => match idx with n :: ch :: f :: rest => keys (fst (locate m f)) (n :: ch :: snd (locate m f) :: rest) | _ => [] end)
    (multi_sample m N false p rep).
Proof.
  intros H. unfold multi_sample. fold (part_progs N false p rep).
  replace (mbind (draws (part_progs N false p rep)) _)
    with (mbind (ss <~ draws (part_progs N false p rep) ;; lift (cat_list 2 ss)) (fun s => lift (reorder m s))) by (rewrite mbind_assoc; reflexivity).
  assert (I: indep (N :: md_C m :: md_F m :: post) (cat_key (part_sizes (md_parts m)) keys)
               (ss <~ draws (part_progs N false p rep) ;; lift (cat_list 2 ss))).
  { rewrite <- (is_perm_length _ _ (mo_perm m Hm)), <- part_sizes_sum. apply indep_cat; auto.
    - intros E. apply parts_ne. apply length_zero_iff_nil. rewrite <- (part_progs_length N false p rep), E. reflexivity.
    - rewrite part_progs_length, part_sizes_length. auto.
    - intros i Hi. rewrite part_progs_length in Hi.
      destruct (nth_error (md_parts m) i) as [[sc lf]|] eqn:Ni; [|apply nth_error_None in Ni; lia].
      rewrite (part_progs_nth _ _ _ _ _ _ _ _ Ni), (part_sizes_nth _ _ _ _ Ni). apply (H i sc lf Ni). }
  eapply indep_ext; [|eapply (indep_select _ (N :: md_C m :: md_F m :: post) _
    (fun idx => match idx with n :: ch :: f :: rest => n :: ch :: nth f (inverted m) 0%nat :: rest | _ => [] end) (reorder m) _ I)].
  - intros idx Hi. destruct idx as [|n [|ch [|f rest]]]; cbn [inb] in Hi; try tauto; reflexivity.
  - intros t St. destruct (reorder_ok m Hm N (md_C m) post t St) as (t' & Et & St' & Gt). exists t'. split; auto. split; [congruence|].
    intros idx Hi. destruct idx as [|n [|ch [|f rest]]]; cbn [inb] in Hi; try tauto. apply Gt. tauto.
  - intros idx Hi. destruct idx as [|n [|ch [|f rest]]]; cbn [inb] in *; try tauto. destruct Hi as (H1 & H2 & Hf & H4).
    repeat split; auto. apply (argsort_nth _ _ f (mo_perm m Hm) Hf).
  - intros idx idx' Hi Hi'. destruct idx as [|n [|ch [|f rest]]]; cbn [inb] in *; try tauto.
    destruct idx' as [|n' [|ch' [|f' rest']]]; cbn [inb] in *; try tauto. intros E. injection E as -> -> H3 ->. do 2 f_equal.
    apply (f_equal (fun q => nth q (all_scopes (md_parts m)) 0%nat)) in H3.
    destruct (argsort_nth _ _ f (mo_perm m Hm)) as [_ A1]; [tauto|]. destruct (argsort_nth _ _ f' (mo_perm m Hm)) as [_ A2]; [tauto|].
    unfold inverted in H3. rewrite A1, A2 in H3. congruence.
Qed.
Lemma draws_ret {A} (d : A) : forall (ps : list (M V A)), (forall i, (i < length ps)%nat -> exists a, nth i ps (Fail GenericExc) = Ret a) ->
  exists ts, draws ps = Ret ts /\ length ts = length ps /\ forall i, (i < length ps)%nat -> nth i ps (Fail GenericExc) = Ret (nth i ts d).
Proof.
  induction ps as [|p ps IH]; intros H.
  - exists []. split; auto. split; auto. cbn. intros; lia.
  - destruct (H 0%nat) as (a & Ea); [cbn; lia|]. cbn [nth] in Ea.
    destruct IH as (ts & Ets & Hl & Hts).
    { intros i Hi. apply (H (S i)). cbn; lia. }
    exists (a :: ts). cbn [draws]. rewrite Ea. cbn [mbind]. rewrite Ets. cbn [mbind length]. split; auto. split; auto.
    intros [|i] Hi; cbn [nth]; auto. apply Hts. lia.
Qed.
Lemma multi_modes N post p rep (val : nat -> list nat -> V) :
  (forall i sc lf, nth_error (md_parts m) i = Some (sc, lf) -> exists t, part_sample N true p rep i (sc, lf) = Ret t /\
     shape t = N :: md_C m :: length sc :: post /\ forall idx, inb (N :: md_C m :: length sc :: post) idx -> get t idx = val i idx) ->
  exists t, multi_sample m N true p rep = Ret t /\ shape t = N :: md_C m :: md_F m :: post /\
    forall n ch f rest, inb (N :: md_C m :: md_F m :: post) (n :: ch :: f :: rest) ->
      get t (n :: ch :: f :: rest) = val (fst (locate m f)) (n :: ch :: snd (locate m f) :: rest).
Proof.
  intros H. unfold multi_sample. fold (part_progs N true p rep). set (d0 := mkT [] (fun _ : list nat => z)).
  assert (H': forall i, (i < length (part_progs N true p rep))%nat -> exists sc lf, nth_error (md_parts m) i = Some (sc, lf) /\
     nth i (part_progs N true p rep) (Fail GenericExc) = part_sample N true p rep i (sc, lf)).
  { intros i Hi. rewrite part_progs_length in Hi. destruct (nth_error (md_parts m) i) as [[sc lf]|] eqn:Ni; [|apply nth_error_None in Ni; lia].
    exists sc, lf. split; auto. apply part_progs_nth; auto. }
  destruct (draws_ret d0 (part_progs N true p rep)) as (ts & -> & Hl & Hts).
  { intros i Hi. destruct (H' i Hi) as (sc & lf & Ni & ->). destruct (H i sc lf Ni) as (t & Et & _). eauto. }
  cbn [mbind].
  assert (Q: forall i sc lf, nth_error (md_parts m) i = Some (sc, lf) -> shape (nth i ts d0) = N :: md_C m :: length sc :: post /\
     forall idx, inb (N :: md_C m :: length sc :: post) idx -> get (nth i ts d0) idx = val i idx).
  { intros i sc lf Ni. assert (Hi: (i < length (part_progs N true p rep))%nat) by (rewrite part_progs_length; apply nth_error_Some; congruence).
    specialize (Hts i Hi). rewrite (part_progs_nth _ _ _ _ _ _ _ _ Ni) in Hts. destruct (H i sc lf Ni) as (t & Et & St & Gt).
    rewrite Et in Hts. inversion Hts. subst t. auto. }
  rewrite part_progs_length in Hl.
  destruct (cat_list_ok d0 N (md_C m) post (part_sizes (md_parts m)) ts) as (y & -> & Sy & Gy).
  { intros E. apply parts_ne. apply length_zero_iff_nil. rewrite <- Hl, E. reflexivity. }
  { rewrite part_sizes_length. auto. }
  { intros i Hi. rewrite Hl in Hi. destruct (nth_error (md_parts m) i) as [[sc lf]|] eqn:Ni; [|apply nth_error_None in Ni; lia].
    rewrite (part_sizes_nth _ _ _ _ Ni). apply (Q i sc lf Ni). }
  cbn [lift mbind]. rewrite part_sizes_sum, (is_perm_length _ _ (mo_perm m Hm)) in Sy.
  destruct (reorder_ok m Hm N (md_C m) post y Sy) as (y' & -> & Sy' & Gy'). cbn [lift]. exists y'. split; auto. split; [congruence|].
  intros n ch f rest (H1 & H2 & Hf & H4). rewrite Gy' by auto. destruct (served m Hm f Hf) as (i & j & lf & SV).
  destruct (serves_pos m Hm _ _ _ _ SV) as (Hi & Hj & _ & -> & _). rewrite Gy by (auto; lia). rewrite (serves_locate m Hm _ _ _ _ SV). cbn [fst snd].
  destruct SV as (sc & Ni & Nj). apply (Q i sc lf Ni). cbn [inb]. rewrite (part_sizes_nth _ _ _ _ Ni) in Hj. auto.
Qed.

Hypothesis Hctx : forall i sc lf, nth_error (md_parts m) i = Some (sc, lf) -> lf_ctx lf = true.

Lemma multi_none N c D : cgood c N D (md_L m) (md_R m) ->
  indep [N; md_C m; md_F m; md_L m] (fun idx => match idx with [n; ch; f; l] => mark [ch; f; l; get (c_rep c) [n]] | _ => [] end)
    (multi_sample m N false None (c_rep c)) /\
  (forall md, lf_mode comb = Some md -> exists t, multi_sample m N true None (c_rep c) = Ret t /\ shape t = [N; md_C m; md_F m; md_L m] /\
     forall n ch f l, (n < N)%nat -> (ch < md_C m)%nat -> (f < md_F m)%nat -> (l < md_L m)%nat ->
       get t [n; ch; f; l] = md [ch; f; l; get (c_rep c) [n]]).
Proof.
  intros Hc. split.
  - eapply indep_ext; [|apply (multi_indep N [md_L m] None (c_rep c)
      (fun i idx => i :: match idx with [n; ch; f; l] => [ch; f; l; get (c_rep c) [n]] | _ => [] end))].
    + intros idx Hi. inbs. unfold mark. reflexivity.
    + intros i sc lf Ni. destruct (mo_part m Hm _ _ _ Ni) as (_ & _ & E1 & E2 & E3 & E4). unfold part_sample. cbn [lift mbind fst snd].
      apply indep_tag. rewrite <- E1, <- E2, <- E3. apply (part_none N lf c false D); eauto. rewrite E3, E4. auto.
  - intros md Hmd. cbn [comb lf_mode] in Hmd. destruct (forallb _ (md_parts m)) eqn:Fm; [|discriminate]. inversion Hmd; subst md; clear Hmd.
    rewrite forallb_forall in Fm.
    destruct (multi_modes N [md_L m] None (c_rep c) (fun i idx => match idx with [n; ch; j; l] =>
       match nth_error (md_parts m) i with Some (_, lf) => match lf_mode lf with Some md => md [ch; j; l; get (c_rep c) [n]] | None => z end | None => z end
       | _ => z end)) as (t & Et & St & Gt).
    { intros i sc lf Ni. specialize (Fm _ (nth_error_In _ _ Ni)). cbn [snd] in Fm. destruct (lf_mode lf) as [md|] eqn:Emd; [|discriminate].
      destruct (mo_part m Hm _ _ _ Ni) as (_ & _ & E1 & E2 & E3 & E4). unfold part_sample. cbn [lift mbind fst snd].
      destruct (proj2 (part_none N lf c true D ltac:(eauto) ltac:(rewrite E3, E4; auto)) md eq_refl Emd) as (t & -> & St & Gt).
      cbn [tag]. exists t. rewrite E1, E2, E3 in *. split; auto. split; auto. intros idx Hi. inbs. rewrite Gt by auto. rewrite Ni, Emd. auto. }
    exists t. split; auto. split; auto. intros n ch f l Hn Hch Hf Hl. rewrite Gt by (cbn [inb]; auto). reflexivity.
Qed.

Lemma multi_some N c : cgood c N (md_F m) (md_L m) (md_R m) ->
  indep [N; md_C m; md_F m] (fun idx => match idx with [n; ch; f] => mark [ch; f; get (c_out c) [n; f]; get (c_rep c) [n]] | _ => [] end)
    (multi_sample m N false (Some (c_out c)) (c_rep c)) /\
  (forall md, lf_mode comb = Some md -> exists t, multi_sample m N true (Some (c_out c)) (c_rep c) = Ret t /\ shape t = [N; md_C m; md_F m] /\
     forall n ch f, (n < N)%nat -> (ch < md_C m)%nat -> (f < md_F m)%nat ->
       get t [n; ch; f] = md [ch; f; get (c_out c) [n; f]; get (c_rep c) [n]]).
Proof.
  intros Hc. pose proof Hc as (En & So & Go & Sr & Gr).
  assert (P: forall i sc lf, nth_error (md_parts m) i = Some (sc, lf) -> exists o, index_dim 1 (vec sc) (c_out c) = Ok o /\
     cgood (set_out c o) N (lf_F lf) (lf_L lf) (lf_R lf) /\ (0 < lf_F lf)%nat /\
     forall n j f, nth_error sc j = Some f -> get o [n; j] = get (c_out c) [n; f]).
  { intros i sc lf Ni. destruct (mo_part m Hm _ _ _ Ni) as (_ & Hsc & E1 & E2 & E3 & E4).
    assert (Hlt: forall j, (j < length sc)%nat -> (nth j sc 0 < md_F m)%nat).
    { intros j Hj. apply (serves_pos m Hm (nth j sc 0%nat) i j lf). exists sc. split; auto. apply nth_error_nth'. auto. }
    unfold index_dim, vec, size. cbn [shape]. rewrite So. cbn [nth set_nth].
    replace (forallb _ _) with true.
    2:{ symmetry. apply forallb_forall. intros j Hj. apply in_seq0 in Hj. cbn [get hd]. apply Nat.ltb_lt. auto. }
    eexists. split; [reflexivity|]. rewrite E2, E3, E4. split; [|split; [auto|]].
    - repeat split; cbn [set_out c_n c_out c_rep shape get set_nth nth hd]; auto.
    - intros n j f Hj. cbn [get set_nth nth hd]. rewrite (nth_error_nth _ _ _ Hj). reflexivity. }
  assert (NE: forall i sc lf j, nth_error (md_parts m) i = Some (sc, lf) -> (j < length sc)%nat ->
     exists f, nth_error sc j = Some f /\ nth j (match nth_error (md_parts m) i with Some (s, _) => s | None => [] end) 0%nat = f).
  { intros i sc lf j Ni Hj. rewrite Ni. destruct (nth_error sc j) as [f|] eqn:Ej; [|apply nth_error_None in Ej; lia].
    exists f. split; auto. apply nth_error_nth. auto. }
  assert (LF: forall f, (f < md_F m)%nat -> nth (snd (locate m f)) (match nth_error (md_parts m) (fst (locate m f)) with Some (s, _) => s | None => [] end) 0%nat = f).
  { intros f Hf. destruct (served m Hm f Hf) as (i & j & lf & SV). rewrite (serves_locate m Hm _ _ _ _ SV). cbn [fst snd].
    destruct SV as (sc & -> & Hj). apply nth_error_nth. auto. }
  split.
  - eapply indep_ext; [|apply (multi_indep N [] (Some (c_out c)) (c_rep c)
      (fun i idx => i :: match idx with [n; ch; j] => [ch; j; get (c_out c) [n; nth j (match nth_error (md_parts m) i with Some (s, _) => s | None => [] end) 0%nat];
          get (c_rep c) [n]] | _ => [] end))].
    + intros idx Hi. inbs. cbv beta iota. rewrite LF by auto. reflexivity.
    + intros i sc lf Ni. destruct (P i sc lf Ni) as (o & Eo & Gc & HF & Ho). destruct (mo_part m Hm _ _ _ Ni) as (_ & _ & E1 & E2 & E3 & E4).
      unfold part_sample. cbn [fst snd]. rewrite Eo. cbn [lift mbind bind].
      eapply indep_ext; [|apply indep_tag; rewrite <- E1, <- E2; apply (part_some N lf (set_out c o) false); eauto].
      intros idx Hi. rewrite E2 in *. inbs. cbn [set_out c_out c_rep]. match goal with H : (?q < length sc)%nat |- context [get o [_; ?q]] => destruct (NE i sc lf q Ni H) as (f & Hf & ->) end. rewrite (Ho _ _ _ Hf). reflexivity.
  - intros md Hmd. cbn [comb lf_mode] in Hmd. destruct (forallb _ (md_parts m)) eqn:Fm; [|discriminate]. inversion Hmd; subst md; clear Hmd.
    rewrite forallb_forall in Fm.
    destruct (multi_modes N [] (Some (c_out c)) (c_rep c) (fun i idx => match idx with [n; ch; j] =>
       match nth_error (md_parts m) i with Some (sc, lf) => match lf_mode lf with Some md => md [ch; j; get (c_out c) [n; nth j sc 0%nat]; get (c_rep c) [n]] | None => z end | None => z end
       | _ => z end)) as (t & Et & St & Gt).
    { intros i sc lf Ni. specialize (Fm _ (nth_error_In _ _ Ni)). cbn [snd] in Fm. destruct (lf_mode lf) as [md|] eqn:Emd; [|discriminate].
      destruct (P i sc lf Ni) as (o & Eo & Gc & HF & Ho). destruct (mo_part m Hm _ _ _ Ni) as (_ & _ & E1 & E2 & E3 & E4).
      unfold part_sample. cbn [fst snd]. rewrite Eo. cbn [lift mbind bind].
      destruct (proj2 (part_some N lf (set_out c o) true ltac:(eauto) HF Gc) md eq_refl Emd) as (t & Et & St & Gt). cbn [set_out c_out c_rep] in *. rewrite Et.
      cbn [tag]. exists t. rewrite E1, E2 in *. split; auto. split; auto. intros idx Hi. inbs. rewrite Gt by auto. rewrite Ni, Emd.
      match goal with H : (?q < length sc)%nat |- context [get o [_; ?q]] => destruct (NE i sc lf q Ni H) as (f & Hf & Ef) end. rewrite Ni in Ef. rewrite Ef. rewrite (Ho _ _ _ Hf). auto. }
    exists t. split; auto. split; auto. intros n ch f Hn Hch Hf. rewrite Gt by (cbn [inb]; auto).
    destruct (served m Hm f Hf) as (i & j & lf & SV). rewrite (comb_at_serves _ _ _ _ _ _ _ _ _ SV). rewrite (serves_locate m Hm _ _ _ _ SV). cbn [fst snd].
    destruct SV as (sc & -> & Hj). rewrite (nth_error_nth _ _ _ Hj). reflexivity.
Qed.
End Comb.

(** * Networks with such a layer *)
Section Net.
Context {V : Type}.
Variable z : V.
Variable m : multi V.
Hypothesis Hm : multi_ok m.
Variable E : einet V.
Hypothesis HE : einet_ok E.
Hypothesis El : leaf_of (e_leaf E) = comb z m.

Lemma dims : e_C E = md_C m /\ e_F E = md_F m /\ e_L E = md_L m /\ e_R E = md_R m.
Proof.
  pose proof (eo_lC E HE) as H1. pose proof (eo_lF E HE) as H2. pose proof (eo_lL E HE) as H3. pose proof (eo_lR E HE) as H4.
  rewrite El in *. cbn in *. auto.
Qed.
(** Values in the support of the part that serves their feature, in any layout. *)
Definition own_values (N : nat) (x : tensor (option V)) : Prop := forall n c f i j lf v, (n < N)%nat -> (c < md_C m)%nat ->
  serves m f i j lf -> entry x n c f = Some v -> lf_supp lf v = true.

Lemma multi_net_rep N x ms : input_ok E N x ms -> own_values N x ->
  exists y cs, multi_einet_forward E m x ms = Ok (y, cs) /\ shape y = [N; e_K E] /\
    (forall n k, (n < N)%nat -> (k < e_K E)%nat ->
       get y [n; k] = Fin (ln (neteval (fnet E) (lval (pdf (comb z m)) (row x ms n)) k))) /\
    exists v, (forall n, (n < N)%nat -> vagree (leaf_out E) (e_L E) (e_R E) (v n) (leafval (fnet E) (lval (pdf (comb z m)) (row x ms n)))) /\
    layers_cached 1 (e_R E) (leaf_out E) (e_L E) (e_layers E) (ca_layers cs) N v /\
    ((1 < e_R E)%nat -> forall mx, e_mixing E = Some mx ->
       mixing_cached mx N (ca_mixing cs) (fun n y r => evals (layers_us 1 (e_L E) (e_layers E)) (v n) 0%nat y r)).
Proof.
  intros Hi Ho. destruct dims as (EC & EF & EL' & ER). destruct (prepare_ok E HE N x (proj1 Hi)) as (w & Ew & Sw & Gw).
  destruct (multi_forward_rep z m Hm N w ms) as (t & Et & St & Gt).
  { congruence. }
  { intros n c f i j lf v Hn Hc SV. destruct (serves_pos m Hm _ _ _ _ SV) as (_ & _ & Hf & _). rewrite Gw by (rewrite ?EC, ?EF; auto). intros Hv. eapply Ho; eauto. }
  { destruct Hi as (_ & _ & H). destruct ms as [s|]; auto. intros f Hf. rewrite <- EF. apply H. auto. }
  destruct (top_forward E HE N t (fun n => lval (pdf (comb z m)) (seen w ms n))) as (y & cs & Ey & Sy & Gy & H1 & H2).
  { rewrite El. exact St. }
  { intros. apply lval_pos. }
  { rewrite El. exact Gt. }
  exists y, cs. split.
  { unfold multi_einet_forward. rewrite Ew. cbn [bind]. unfold multi_leaf_forward. rewrite Et. cbn [bind].
    rewrite <- Ey. unfold leaf_top. destruct (e_leaf E); reflexivity. }
  split; auto.
  assert (Q: forall n, (n < N)%nat -> qagree (fnet E) (lval (pdf (comb z m)) (seen w ms n)) (lval (pdf (comb z m)) (row x ms n))).
  { intros n Hn c f l r Hc Hf _ _. unfold lval, seen, row. destruct (in_ms ms f); auto. rewrite Gw; auto. }
  split.
  - intros n k Hn Hk. rewrite Gy by auto. do 2 f_equal. apply neteval_ext; auto. apply fnet_wf; auto.
  - eexists. split; [|split; [exact H1|exact H2]]. intros n Hn. apply (leafval_ext (fnet E)). apply Q; auto.
Qed.

(** The likelihoods are those of the network with the combined leaf. *)
Theorem multi_net_forward N x ms : input_ok E N x ms -> own_values N x ->
  exists y cs y', multi_einet_forward E m x ms = Ok (y, cs) /\ forward E x ms = Ok y' /\ shape y = [N; e_K E] /\ shape y' = [N; e_K E] /\
    forall n k, (n < N)%nat -> (k < e_K E)%nat -> get y [n; k] = get y' [n; k].
Proof.
  intros Hi Ho. destruct (multi_net_rep N x ms Hi Ho) as (y & cs & Ey & Sy & Gy & _).
  destruct (forward_rep E HE N x ms Hi) as (y' & Ey' & Sy' & Gy'). exists y, cs, y'. split; auto. split; auto. split; auto. split; auto.
  intros n k Hn Hk. rewrite Gy, Gy' by auto. rewrite El. reflexivity.
Qed.

Hypothesis Hctx : forall i sc lf, nth_error (md_parts m) i = Some (sc, lf) -> lf_ctx lf = true.

Definition mbottom (c : sctx) (mode : bool) : M V (tensor V) :=
  c <~ lift (unpermute E c) ;; multi_leaf_sample m (e_leaf E) c mode.
Definition chosen (c : sctx) (n f : nat) : nat := get (c_out c) [n; sgrp E (get (c_rep c) [n]) f].

Lemma mbottom_ok c N : (0 < N)%nat -> cgood c N (leaf_out E) (e_L E) (e_R E) ->
  indep [N; e_C E; e_F E] (fun idx => match idx with [n; ch; f] => mark m [ch; f; chosen c n f; get (c_rep c) [n]] | _ => [] end) (mbottom c false) /\
  (forall md, lf_mode (comb z m) = Some md -> exists t, mbottom c true = Ret t /\ shape t = [N; e_C E; e_F E] /\
     forall n ch f, (n < N)%nat -> (ch < e_C E)%nat -> (f < e_F E)%nat -> get t [n; ch; f] = md [ch; f; chosen c n f; get (c_rep c) [n]]).
Proof.
  intros HN Hc. destruct dims as (EC & EF & EL' & ER). pose proof (eo_ll E HE) as H. pose proof (eo_F E HE) as HF.
  pose proof (sgrp_lt E HE) as SL.
  unfold chosen, mbottom, leaf_layer_ok, leaf_out, unpermute, sgrp in *. pose proof El as El'.
  destruct (e_leaf E) as [lf' Fo sc|lf' Fo pl pinv|lf']; cbn [leaf_of] in El'; subst lf';
    destruct (e_perm E) as [[p q]|]; try tauto; cbn [lift mbind multi_leaf_sample].
  - pose proof Hc as (En & So & Go & Sr & Gr). rewrite En in *. rewrite EF, ER in H. rewrite EL', ER in Hc. rewrite EC, EF, EL', ER in *.
    assert (FI: forall t, shape t = [N; md_C m; md_F m; md_L m] ->
       exists y, fact_index (comb z m) Fo sc N (c_out c) (c_rep c) t = Ok y /\ shape y = [N; md_C m; md_F m] /\
         forall n ch f, (n < N)%nat -> (ch < md_C m)%nat -> (f < md_F m)%nat ->
         get y [n; ch; f] = get t [n; ch; f; get (c_out c) [n; find_group sc Fo (get (c_rep c) [n]) f]]).
    { intros t St. destruct (fact_index_ok (comb z m) Fo sc (find_group sc Fo) c N t HN H Hc St) as (y & Ey & Sy & Gy).
      rewrite En in Ey. exists y. auto. }
    destruct (multi_none z m Hm Hctx N c Fo Hc) as [I1 I2]. split.
    + eapply indep_ext; [|eapply (indep_select _ [N; md_C m; md_F m] _
        (fun idx => match idx with [n; ch; f] => [n; ch; f; get (c_out c) [n; find_group sc Fo (get (c_rep c) [n]) f]] | _ => [] end)
        (fact_index (comb z m) Fo sc N (c_out c) (c_rep c)) _ I1)].
      * intros idx Hi. inbs. reflexivity.
      * intros t St. destruct (FI t St) as (y & Ey & Sy & Gy). exists y. split; auto. split; auto. intros idx Hi. inbs. apply Gy; auto.
      * intros idx Hi. inbs. cbn [inb]. repeat split; auto.
      * intros i j Hi Hj. inbs. intros X. inversion X; subst. reflexivity.
    + intros md Hmd. destruct (I2 md Hmd) as (t & -> & St & Gt). cbn [mbind]. destruct (FI t St) as (y & -> & Sy & Gy). cbn [lift].
      exists y. split; auto. split; auto. intros n ch f Hn Hch Hf. rewrite Gy by auto. apply Gt; auto.
  - destruct H as (HR & HFo & Hp & ->). pose proof Hc as (En & So & Go & Sr & Gr). rewrite En in *. rewrite EF in Hp. rewrite EL', ER in Hc. rewrite EC, EF, EL' in *.
    assert (FI: forall t, shape t = [N; md_C m; md_F m; md_L m] ->
       exists y, simple_index (comb z m) Fo (vec (argsort pl)) N (c_out c) t = Ok y /\ shape y = [N; md_C m; md_F m] /\
         forall n ch f, (n < N)%nat -> (ch < md_C m)%nat -> (f < md_F m)%nat ->
         get y [n; ch; f] = get t [n; ch; f; get (c_out c) [n; simple_sgrp (md_F m) Fo pl f]]).
    { intros t St. destruct (simple_index_ok (comb z m) Fo pl c N (md_R m) t HFo Hp Hc St) as (y & Ey & Sy & Gy).
      rewrite En in Ey. exists y. auto. }
    destruct (multi_none z m Hm Hctx N c Fo Hc) as [I1 I2]. split.
    + eapply indep_ext; [|eapply (indep_select _ [N; md_C m; md_F m] _
        (fun idx => match idx with [n; ch; f] => [n; ch; f; get (c_out c) [n; simple_sgrp (md_F m) Fo pl f]] | _ => [] end)
        (simple_index (comb z m) Fo (vec (argsort pl)) N (c_out c)) _ I1)].
      * intros idx Hi. inbs. reflexivity.
      * intros t St. destruct (FI t St) as (y & Ey & Sy & Gy). exists y. split; auto. split; auto. intros idx Hi. inbs. apply Gy; auto.
      * intros idx Hi. inbs. cbn [inb]. repeat split; auto. apply Go; auto. eapply (SL (get (c_rep c) [x])); auto.
      * intros i j Hi Hj. inbs. intros X. inversion X; subst. reflexivity.
    + intros md Hmd. destruct (I2 md Hmd) as (t & -> & St & Gt). cbn [mbind]. destruct (FI t St) as (y & -> & Sy & Gy). cbn [lift].
      exists y. split; auto. split; auto. intros n ch f Hn Hch Hf. rewrite Gy by auto. apply Gt; auto. apply Go; auto.
      eapply (SL (get (c_rep c) [n])); auto.
  - pose proof Hc as (Hn & So & Go & Sr & Gr).
    assert (PQ: forall r f, (r < e_R E)%nat -> (f < e_F E)%nat -> (nth f (q r) 0 < e_F E)%nat).
    { intros r f Hr Hf. destruct (H r Hr) as [Hp ->]. apply (argsort_nth _ _ f Hp Hf). }
    destruct c as [cn out rep cm ct]. cbn [c_n c_out c_rep set_out c_mpe c_tsum] in *. subst cn.
    destruct out as [so go], rep as [sr gr]. cbn [shape get] in *. subst so sr.
    unfold index_dim, buffer, size. cbn [shape nth set_nth get].
    replace (forallb _ _) with true.
    2:{ symmetry. apply forallb_forall. intros i Hi. apply in_seq0 in Hi. apply Nat.ltb_lt. auto. }
    cbn [bind hd nth set_nth]. rewrite gather_ok.
    2:{ fits. }
    2:{ cbn [shape]. intros idx Hi. inbs. cbn [get hd nth set_nth]. unfold size. cbn [shape nth]. apply PQ; auto. }
    cbn [bind lift mbind set_nth get nth hd shape].
    match goal with |- context [set_out ?X ?Y] => set (c' := set_out X Y) end.
    change (c_n c') with N.
    assert (Gc': cgood c' N (md_F m) (md_L m) (md_R m)).
    { rewrite <- EF, <- EL', <- ER. repeat split; cbn; auto. }
    destruct (multi_some z m Hm Hctx N c' Gc') as [I1 I2]. rewrite EC, EF. split.
    + eapply indep_ext; [|exact I1]. intros idx Hi. inbs. reflexivity.
    + intros md Hmd. destruct (I2 md Hmd) as (t & -> & St & Gt). exists t. split; auto.
Qed.

Lemma comb_ctx : lf_ctx (comb z m) = true.
Proof.
  cbn [comb lf_ctx]. apply forallb_forall. intros [sc lf] Hin. apply In_nth_error in Hin as (i & Hi). cbn [snd]. eauto.
Qed.
Lemma rprod3_lprod N C F (u : list nat -> R) : lprod u (all_idx [N; C; F]) = rprod3 N C F (fun n c f => u [n; c; f]).
Proof.
  unfold rprod3. rewrite lprod_all_idx_cons. apply rprod_ext. intros n _. rewrite lprod_all_idx_cons. apply rprod_ext. intros c _.
  rewrite lprod_all_idx_cons. apply rprod_ext. intros f _. cbn [all_idx lprod]. ring.
Qed.
Lemma mbottom_law EL c N (g : nat -> nat -> nat -> V -> R) : leaf_expectation EL -> (0 < N)%nat -> cgood c N (leaf_out E) (e_L E) (e_R E) ->
  expect EL (mbottom c false) (fun t => rprod3 N (e_C E) (e_F E) (fun n ch f => g n ch f (get t [n; ch; f]))) =
  tprod N (leaf_out E) c (fun n => gleaf (e_F E) (e_C E) (sgrp E) (elg (relabel m EL) (g n))).
Proof.
  intros HEL HN Hc. destruct (mbottom_ok c N HN Hc) as [[_ X] _].
  rewrite <- (tprod_gleaf N (leaf_out E) (e_F E) (e_C E) (e_L E) (e_R E) c (sgrp E) (fun n => elg (relabel m EL) (g n)) Hc (sgrp_lt E HE)).
  specialize (X EL HEL (fun idx v => match idx with [n; ch; f] => g n ch f v | _ => 1 end)).
  rewrite !rprod3_lprod in X. etransitivity; [|etransitivity; [exact X|]].
  - apply (expect_ext EL HEL). intros t. rewrite rprod3_lprod. reflexivity.
  - reflexivity.
Qed.

Definition mcore (a : sargs) (cs : caches) : M V (tensor V) := c <~ walk E a cs ;; mbottom c (a_mpe a || a_mpel a).
Lemma multi_core a cs : check_args E a = Ok tt -> multi_ev_caches E m a = Ok cs ->
  multi_einet_sample E m a = mbind (mcore a cs) (finish a).
Proof.
  intros H1 H2. unfold multi_einet_sample, mcore, walk, mbottom, finish. rewrite H1, H2. cbn [lift mbind].
  repeat first [rewrite !mbind_assoc | apply mbind_ext; intros ?]. reflexivity.
Qed.

(** A request with the caches it samples from. *)
Definition mready (a : sargs) (cs : caches) (v : nat -> vals) : Prop :=
  check_args E a = Ok tt /\ multi_ev_caches E m a = Ok cs /\ (0 < num_samples a)%nat /\ class_ok E a /\ a_tsum a <> 0 /\
  cs_ok E 1 (num_samples a) cs v /\ (forall n, (n < num_samples a)%nat -> vpos (leaf_out E) (e_L E) (e_R E) (v n)) /\
  match a_ev a with None => True | Some e => input_ok E (num_samples a) e (a_ms a) end.
Lemma mready_free a : check_args E a = Ok tt -> class_ok E a -> a_ev a = None -> (0 < num_samples a)%nat -> a_tsum a <> 0 ->
  mready a (no_caches E) vone.
Proof.
  intros H1 H2 H3 H4 H5. unfold mready, multi_ev_caches. rewrite H3. split; auto. split; auto. split; auto. split; auto. split; auto.
  split; [apply no_caches_ok; auto|]. split; auto. intros n Hn d s r _ _ _. unfold vone. lra.
Qed.
Lemma mready_ev a e : check_args E a = Ok tt -> a_ev a = Some e -> (0 < num_samples a)%nat -> a_tsum a <> 0 ->
  input_ok E (num_samples a) e (a_ms a) -> own_values (num_samples a) e -> exists cs v, mready a cs v /\
  forall n, (n < num_samples a)%nat -> vagree (leaf_out E) (e_L E) (e_R E) (v n) (leafval (fnet E) (lval (pdf (comb z m)) (row e (a_ms a) n))).
Proof.
  intros Hch Hev HN HT Hin Ho. destruct (multi_net_rep _ e (a_ms a) Hin Ho) as (y & cs & Ey & _ & _ & v & Hv & Hc1 & Hc2).
  exists cs, v. split; auto. unfold mready, multi_ev_caches. rewrite Hev, Ey. cbn [bind]. split; auto. split; auto. split; auto.
  split. { unfold class_ok. unfold check_args in Hch. rewrite Hev in Hch. destruct (a_class a); auto; discriminate. }
  split; auto. split.
  { split; auto. intros HR mx Emx. eexists. split; [apply Hc2; auto|]. reflexivity. }
  split; auto. intros n Hn d s r Hd Hs Hr. rewrite Hv by auto. apply (leafval_pos (fnet E)); auto. intros. apply lval_pos.
Qed.

(** Every mode: which entries are kept, where the others come from. *)
Definition from_part (a : sargs (V := V)) (supp : list nat -> V -> Prop) (c f : nat) (w : V) : Prop :=
  exists i j lf l r, serves m f i j lf /\ (l < e_L E)%nat /\ (r < e_R E)%nat /\
    if a_mpe a || a_mpel a then exists md, lf_mode lf = Some md /\ w = md [c; j; l; r] else supp [i; c; j; l; r] w.
Lemma comb_mode_at md c f l r : lf_mode (comb z m) = Some md -> (f < md_F m)%nat ->
  exists i j lf md', serves m f i j lf /\ lf_mode lf = Some md' /\ md [c; f; l; r] = md' [c; j; l; r].
Proof.
  intros Hmd Hf. cbn [comb lf_mode] in Hmd. destruct (forallb _ (md_parts m)) eqn:Fm; [|discriminate]. inversion Hmd; subst md; clear Hmd.
  rewrite forallb_forall in Fm. destruct (served m Hm f Hf) as (i & j & lf & SV). rewrite (comb_at_serves m Hm _ _ _ _ _ _ _ _ _ SV).
  pose proof SV as (sc & Ni & _). specialize (Fm _ (nth_error_In _ _ Ni)). cbn [snd] in Fm. destruct (lf_mode lf) as [md|] eqn:Emd; [|discriminate].
  exists i, j, lf, md. auto.
Qed.
Lemma multi_finish a cs v t : mready a cs v -> shape t = [num_samples a; e_C E; e_F E] ->
  exists o, finish a t = Ret o /\ shape o = match a_ev a with None => shape t | Some e => shape e end /\
   forall n c f, (n < num_samples a)%nat -> (c < e_C E)%nat -> (f < e_F E)%nat ->
     entry o n c f = match a_ev a with
                     | Some e => match row e (a_ms a) n c f with Some v => Some v | None => Some (get t [n; c; f]) end
                     | None => Some (get t [n; c; f])
                     end.
Proof.
  intros (_ & _ & _ & _ & _ & _ & _ & H) St. unfold finish. destruct (a_ev a) as [e|].
  - destruct (merge_ok E _ e (a_ms a) t H St) as (o & -> & So & Go). exists o. auto.
  - eexists. split; [reflexivity|]. split; auto. intros n c f Hn Hc Hf. unfold entry. cbn [tmap shape get]. rewrite St. reflexivity.
Qed.
Theorem multi_out a cs v : mready a cs v -> (a_mpe a || a_mpel a = true -> lf_mode (comb z m) <> None) ->
  let N := num_samples a in
  forall supp r, outcome supp (multi_einet_sample E m a) r -> exists o, r = Ok o /\
    shape o = match a_ev a with None => [N; e_C E; e_F E] | Some e => shape e end /\
    forall n c f, (n < N)%nat -> (c < e_C E)%nat -> (f < e_F E)%nat ->
      match match a_ev a with None => None | Some e => row e (a_ms a) n c f end with
      | Some v => entry o n c f = Some v
      | None => exists w, entry o n c f = Some w /\ from_part a supp c f w
      end.
Proof.
  intros Hr Hmd N supp r Ho. pose proof Hr as (Hch & Hcs & HN & Hcl & HT & Hok & Hpos & _). fold N in HN, Hok, Hpos.
  rewrite (multi_core a cs Hch Hcs) in Ho. destruct dims as (EC & EF & EL' & ER).
  apply outcome_bind in Ho as [(e & Ho & _)|(t & Ho & Hf)].
  - exfalso. unfold mcore in Ho. apply outcome_bind in Ho as [(e' & Ho & _)|(c & Ho & Hb)].
    + destruct (proj1 (walk_out E HE a cs v 1 Hcl HN HT Hok Hpos) _ _ Ho) as (c' & Z & _). discriminate.
    + destruct (proj1 (walk_out E HE a cs v 1 Hcl HN HT Hok Hpos) _ _ Ho) as (c' & Z & Gc). inversion Z; subst c'.
      destruct (mbottom_ok c N HN Gc) as [[O _] O2]. destruct (a_mpe a || a_mpel a).
      * destruct (lf_mode (comb z m)) as [md|] eqn:Em; [|exfalso; apply Hmd; auto]. destruct (O2 md eq_refl) as (t & Et & _).
        rewrite Et in Hb. inversion Hb.
      * destruct (O _ _ Hb) as (t & Z' & _). discriminate.
  - unfold mcore in Ho. apply outcome_bind in Ho as [(e' & _ & Z)|(c & Ho & Hb)]; [discriminate|].
    destruct (proj1 (walk_out E HE a cs v 1 Hcl HN HT Hok Hpos) _ _ Ho) as (c' & Z & Gc). inversion Z; subst c'. fold N in Gc.
    pose proof Gc as (_ & _ & Go & _ & Gr).
    assert (F: shape t = [N; e_C E; e_F E] /\ forall n ch f, (n < N)%nat -> (ch < e_C E)%nat -> (f < e_F E)%nat -> from_part a supp ch f (get t [n; ch; f])).
    { destruct (mbottom_ok c N HN Gc) as [[O _] O2]. unfold from_part. destruct (a_mpe a || a_mpel a).
      - destruct (lf_mode (comb z m)) as [md|] eqn:Em; [|exfalso; apply Hmd; auto]. destruct (O2 md eq_refl) as (t' & Et & St & Gt).
        rewrite Et in Hb. apply outcome_ret_inv in Hb. inversion Hb; subst t'. split; auto. intros n ch f Hn Hc Hf'.
        destruct (comb_mode_at md ch f (chosen c n f) (get (c_rep c) [n]) Em) as (i & j & lf & md' & SV & Emd & Ev); [congruence|].
        exists i, j, lf, (chosen c n f), (get (c_rep c) [n]). split; auto. split; [apply Go; auto; apply sgrp_lt; auto|]. split; auto.
        exists md'. split; auto. rewrite Gt by auto. auto.
      - destruct (O _ _ Hb) as (t' & Z' & St & Gt). inversion Z'; subst t'. split; auto. intros n ch f Hn Hc Hf'.
        destruct (served m Hm f) as (i & j & lf & SV); [congruence|].
        exists i, j, lf, (chosen c n f), (get (c_rep c) [n]). split; auto. split; [apply Go; auto; apply sgrp_lt; auto|]. split; auto.
        specialize (Gt [n; ch; f]). cbn [inb] in Gt. specialize (Gt ltac:(auto)). rewrite (mark_serves m Hm _ _ _ _ _ _ _ SV) in Gt. exact Gt. }
    destruct F as [St Ft]. destruct (multi_finish a cs v t Hr St) as (o & Eo & So & Go'). rewrite Eo in Hf. apply outcome_ret_inv in Hf.
    exists o. split; auto. rewrite St in So. split; auto. intros n ch f Hn Hc Hf'. rewrite Go' by auto.
    destruct (a_ev a) as [e|]; [|eauto]. destruct (row e (a_ms a) n ch f); eauto.
Qed.

Lemma mcore_law EL a cs v : leaf_expectation EL -> mready a cs v -> a_mpe a = false -> a_mpel a = false -> cs_ok E (a_tsum a) (num_samples a) cs v ->
  let N := num_samples a in let T := a_tsum a in forall g : nat -> nat -> nat -> V -> R,
  expect EL (mcore a cs) (fun t => rprod3 N (e_C E) (e_F E) (fun n c f => g n c f (get t [n; c; f]))) =
     rprod N (fun n => rsum (e_K E) (fun y => cweight E a n y *
       (rsum (e_R E) (fun r => emix E T y r * evals (us E T) (vmul (gleaf (e_F E) (e_C E) (sgrp E) (elg (relabel m EL) (g n))) (v n)) 0%nat y r) /
        rsum (e_R E) (fun r => emix E T y r * evals (us E T) (v n) 0%nat y r)))).
Proof.
  intros HEL Hr Hm1 Hm2 Hok N T g. pose proof Hr as (Hch & Hcs & HN & Hcl & HT & _ & Hpos & _).
  destruct (walk_law E HE EL HEL a cs v Hcl HN Hm1 HT Hok Hpos) as [O X]. fold N T in O, X, HN.
  unfold mcore. rewrite Hm1, Hm2. cbn [orb]. rewrite expect_bind by auto.
  rewrite (expect_ext_outcome EL HEL _ _ (fun c => tprod N (leaf_out E) c (fun n => gleaf (e_F E) (e_C E) (sgrp E) (elg (relabel m EL) (g n))))).
  - apply X.
  - intros c Ho. destruct (O _ _ Ho) as (c' & Z & Gc & _). inversion Z; subst c'. apply mbottom_law; auto.
Qed.

(** Samples follow the law of the network with the combined leaf. *)
Theorem multi_law EL a : leaf_expectation EL -> check_args E a = Ok tt -> (0 < num_samples a)%nat -> a_mpe a = false -> a_mpel a = false ->
  match a_ev a with
  | None => class_ok E a /\ a_tsum a <> 0
  | Some e => input_ok E (num_samples a) e (a_ms a) /\ own_values (num_samples a) e /\ a_tsum a = 1
  end ->
  let N := num_samples a in forall g : nat -> nat -> nat -> option V -> R,
  expect EL (multi_einet_sample E m a) (fun o => rprod3 N (e_C E) (e_F E) (fun n c f => g n c f (entry o n c f))) =
  expect (relabel m EL) (sample E a) (fun o => rprod3 N (e_C E) (e_F E) (fun n c f => g n c f (entry o n c f))).
Proof.
  intros HEL Hch HN Hm1 Hm2 Hev N g. pose proof (relabel_ok m EL HEL) as HEL'.
  assert (Hctx': lf_ctx (leaf_of (e_leaf E)) = true) by (rewrite El; apply comb_ctx).
  assert (P: exists cs v cs' v', mready a cs v /\ cs_ok E (a_tsum a) N cs v /\ ev_caches E a = Ok cs' /\ cs_ok E (a_tsum a) N cs' v' /\
     (forall n, (n < N)%nat -> vpos (leaf_out E) (e_L E) (e_R E) (v' n)) /\ (forall n, (n < N)%nat -> vagree (leaf_out E) (e_L E) (e_R E) (v n) (v' n))).
  { destruct (a_ev a) as [e|] eqn:Ev.
    - destruct Hev as (Hin & Ho & HT). destruct (mready_ev a e Hch Ev HN ltac:(lra) Hin Ho) as (cs & v & Hr & Hv).
      destruct (forward_full_rep E HE _ e (a_ms a) Hin) as (y & cs' & Ey & _ & _ & v' & Hv' & Hc1 & Hc2). rewrite El in Hv'.
      exists cs, v, cs', v'. split; auto. split; [rewrite HT; apply Hr|].
      split; [unfold ev_caches; rewrite Ev, Ey; reflexivity|]. split.
      { rewrite HT. split; auto. intros HR mx Emx. eexists. split; [apply Hc2; auto|]. reflexivity. }
      split.
      + intros n Hn d s r Hd Hs Hr'. rewrite Hv' by auto. apply (leafval_pos (fnet E)); auto. intros. apply lval_pos.
      + intros n Hn d s r Hd Hs Hr'. rewrite Hv, Hv' by auto. reflexivity.
    - destruct Hev as [Hcl HT]. exists (no_caches E), vone, (no_caches E), vone. split; [apply mready_free; auto|].
      split; [apply no_caches_ok; auto|]. split; [unfold ev_caches; rewrite Ev; auto|]. split; [apply no_caches_ok; auto|].
      split; [intros n Hn d s r _ _ _; unfold vone; lra|]. intros n Hn d s r _ _ _. reflexivity. }
  destruct P as (cs & v & cs' & v' & Hr & Hok & Ecs' & Hok' & Hpos' & Hagree).
  rewrite (multi_core a cs Hch); [|apply Hr]. rewrite (sample_core E a cs' Hch Ecs'). rewrite !expect_bind by auto.
  set (g' := fun n c f w => g n c f (match a_ev a with Some e => match row e (a_ms a) n c f with Some v => Some v | None => Some w end | None => Some w end)).
  pose proof Hr as (_ & _ & _ & Hcl & HT & Hok1 & Hpos & _).
  destruct (core_law E HE (relabel m EL) HEL' a cs' v' Hcl HN Hm1 Hm2 HT Hctx' Hok' Hpos') as [O X].
  transitivity (expect EL (mcore a cs) (fun t => rprod3 N (e_C E) (e_F E) (fun n c f => g' n c f (get t [n; c; f])))).
  { apply (expect_ext_outcome EL HEL). intros t Ho.
    assert (St: shape t = [N; e_C E; e_F E]).
    { unfold mcore in Ho. apply outcome_bind in Ho as [(e' & _ & Z)|(c & Ho & Hb)]; [discriminate|].
      destruct (proj1 (walk_out E HE a cs v 1 Hcl HN HT Hok1 Hpos) _ _ Ho) as (c' & Z & Gc). inversion Z; subst c'.
      rewrite Hm1, Hm2 in Hb. cbn [orb] in Hb. destruct (mbottom_ok c N HN Gc) as [[OO _] _]. destruct (OO _ _ Hb) as (t' & Z' & St & _). congruence. }
    destruct (multi_finish a cs v t Hr St) as (o & -> & _ & Go). cbn [expect]. apply rprod3_ext. intros n c f Hn Hc Hf. rewrite Go by auto.
    reflexivity. }
  etransitivity; [exact (mcore_law EL a cs v HEL Hr Hm1 Hm2 Hok g')|]. fold N.
  transitivity (expect (relabel m EL) (core E a cs') (fun t => rprod3 N (e_C E) (e_F E) (fun n c f => g' n c f (get t [n; c; f])))).
  - etransitivity; [|symmetry; exact (X g')]. fold N. apply rprod_ext. intros n Hn. apply rsum_ext. intros y Hy. f_equal.
    pose proof (layers_chain (a_tsum a) _ _ _ _ _ _ (eo_layers E HE)) as C. f_equal.
    + apply rsum_ext. intros r Hr'. f_equal. unfold us. eapply (evals_ext (e_R E)); [exact C| | | |]; auto.
      intros d s q Hd Hs Hq. unfold vmul. rewrite (Hagree n Hn) by auto. reflexivity.
    + apply rsum_ext. intros r Hr'. f_equal. unfold us. eapply (evals_ext (e_R E)); [exact C| | | |]; auto.
  - apply (expect_ext_outcome _ HEL'). intros t Ho. destruct (O _ _ Ho) as (t' & Z & St & _). inversion Z; subst t'.
    destruct (multi_finish a cs v t Hr St) as (o & -> & _ & Go). cbn [expect]. apply rprod3_ext. intros n c f Hn Hc Hf. rewrite Go by auto.
    reflexivity.
Qed.
End Net.
